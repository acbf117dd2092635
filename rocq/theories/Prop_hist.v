(* C48: the history of a cell: one order of its calls that explains their results and in which acquiring calls are synchronized with earlier releasing ones. *)
From Verif Require Import Prop_sc All_atomic SeqCst Publish Prop_hb CellSeq Prop_cell Prop_count Prop_arc Prop_once.
From Coq Require Import Permutation Sorted.

(* ---- specification ---- *)
(* a call: its thread, its position there, what was called and what it returned *)
Definition entry : Type := nat * nat * op * rval.
Definition e_at (p : entry) : nat * nat := fst (fst p).
Definition e_op (p : entry) : op := snd (fst p).
Definition e_res (p : entry) : rval := snd p.
(* what a call does to the value [v] of its cell *)
Definition step (T : arch) (v : Z) (c : op) (r : rval) (v' : Z) : Prop :=
  match c, r with
  | OLoad _ _ _, RVal x => x = v /\ v' = v
  | OStore _ _ _ y, RUnit => v' = y
  | OSwap _ _ _ y, RVal x => x = v /\ v' = y
  | OCas n _ _ _ cur _, RCas x false => x = v /\ v' = v /\ (cas_upper_bits T n = false -> v <> cur) (* may fail spuriously only where C04_*_refuted say *)
  | OCas _ _ _ _ cur y, RCas x true | OCasWeak _ _ _ _ cur y, RCas x true => x = v /\ v = cur /\ v' = y
  | OCasWeak _ _ _ _ _ _, RCas x false => x = v /\ v' = v
  | _, _ => False
  end.
Inductive history (T : arch) : Z -> list entry -> Z -> Prop :=
| hi_nil v : history T v [] v
| hi_cons v p v1 l v' : step T v (e_op p) (e_res p) v1 -> history T v1 l v' -> history T v (p :: l) v'.
(* the call gives the cell a new value *)
Definition changes (c : op) (r : rval) : Prop := is_store c = true \/ exists x y, takes x (c, r) /\ puts y (c, r) /\ x <> y.

(* ---- machinery ---- *)
Lemma step_of T c r m m' a n : 0 < n -> op_cell c = (a, n) -> good_vals n c -> op_done T c m m' r -> step T (rd (t_e T) m a n) c r (rd (t_e T) m' a n).
Proof.
  intros Pn E V D. rewrite op_done_as in D. assert (forall v m1, val n v -> meq m1 (wr (t_e T) m a n v) -> rd (t_e T) m1 a n = v) as Wr.
  { intros v m1 Vv Q. rewrite (rd_meq _ _ _ _ _ Q), rd_wr_any by lia. exact (low_id _ _ Vv). }
  destruct c; cbn [as_done] in D; try (match type of D with context [if ?b then _ else _] => destruct b eqn:Ub end);
    destruct r as [| |? ok]; cbn [op_cell op_spec good_vals] in *; try contradiction D; injection E as -> ->; unfold step.
  - destruct D as [D Q]. split; [auto|]. now apply rd_meq.
  - exact (Wr _ _ V D).
  - destruct D as [D Q]. split; [auto|]. exact (Wr _ _ V Q).
  - destruct D as [D Q]. cbn [fst snd] in *. destruct ok.
    + destruct Q as [Q1 Q2]. split; [auto|]. split; [auto|]. exact (Wr _ _ (proj2 V) Q2).
    + split; [auto|]. split; [now apply rd_meq|]. congruence.
  - destruct D as [D Q]. cbn [fst snd] in *. destruct ok.
    + destruct Q as [Q1 Q2]. split; [auto|]. split; [auto|]. exact (Wr _ _ (proj2 V) Q2).
    + destruct Q as [Q1 Q2]. split; [auto|]. split; [now apply rd_meq|]. auto.
  - destruct D as [D Q]. cbn [fst snd] in *. destruct ok.
    + destruct Q as [Q1 Q2]. split; [auto|]. split; [auto|]. exact (Wr _ _ (proj2 V) Q2).
    + split; [auto|]. now apply rd_meq.
Qed.
Lemma history_snoc T v l v1 p v2 : history T v l v1 -> step T v1 (e_op p) (e_res p) v2 -> history T v (l ++ [p]) v2.
Proof. induction 1 as [v|v p0 w l v1 S H IH]; intros Q; [econstructor; [exact Q|constructor]|]. econstructor; [exact S|]. now apply IH. Qed.
Lemma filter_split {A} (f : A -> bool) l : forall P x Q, filter f l = P ++ x :: Q -> exists P' Q', l = P' ++ x :: Q' /\ filter f P' = P /\ filter f Q' = Q /\ f x = true.
Proof.
  induction l as [|y l IH]; intros P x Q H; [destruct P; discriminate H|]. cbn [filter] in H. destruct (f y) eqn:F.
  - destruct P as [|p P]; cbn [app] in H.
    + injection H as -> H. exists [], l. auto.
    + injection H as -> H. destruct (IH P x Q H) as (P' & Q' & -> & H1 & H2 & H3). exists (p :: P'), Q'. split; [reflexivity|]. cbn [filter]. rewrite F, H1. auto.
  - destruct (IH P x Q H) as (P' & Q' & -> & H1 & H2 & H3). exists (y :: P'), Q'. split; [reflexivity|]. cbn [filter]. rewrite F. auto.
Qed.
Lemma nodup_app_l {A} (l l' : list A) : NoDup (l ++ l') -> NoDup l.
Proof. induction l as [|x l IH]; intros H; [constructor|]. apply NoDup_cons_iff in H. destruct H as [H1 H2]. constructor; [|now apply IH]. intros I. apply H1, in_or_app. now left. Qed.
Definition ent (k : node) : entry := (k_t k, k_q k, k_c k, k_r k).
Section L.
Context (T : arch) (G : graph) (Ie : t_ie T = None) (W : t_wf T) (X : execution T G) (C : cells_client G) (a n : Z).
Notation Sm := (smp_ie T Ie).
Context (L S : list node) (GL : Forall (good T G) L) (Inj : forall k k', In k L -> In k' L -> k_t k = k_t k' -> k_q k = k_q k' -> k = k')
  (All : forall t q c r its, call_at G t q c r its -> exists k, In k L /\ k_t k = t /\ k_q k = q)
  (Hc : forall k k', In k L -> In k' L -> op_cell (k_c k) = op_cell (k_c k') \/ disjoint (op_cell (k_c k)) (op_cell (k_c k')))
  (Hs : forall k, In k L -> an_integer (snd (op_cell (k_c k)))) (Pm : Permutation L S) (So : StronglySorted (fun x y => ~ first G y x) S) (Nd : NoDup S).
Notation E := (t_e T).
Notation state P := (rd E (mem_after G (filter (onC a n) P)) a n).
Lemma replayed : forall P Q, S = P ++ Q -> history T (rd E (g_init G) a n) (map ent (filter (onC a n) P)) (state P).
Proof.
  induction P as [|k P IH] using rev_ind; intros Q Es; [constructor|]. rewrite <- app_assoc in Es. cbn [app] in Es. specialize (IH _ Es).
  destruct (onC a n k) eqn:On.
  - pose proof (proj1 (onC_spec a n k) On) as Ec. destruct (one_step T G Ie W X C a n L S GL Inj All Hc Hs Pm So Nd P k Q Es Ec) as (Pn & Gv & D).
    rewrite filter_app at 1. cbn [filter]. rewrite On, map_app. cbn [map]. apply (history_snoc T _ _ _ (ent k) _ IH). exact (step_of T _ _ _ _ a n Pn Ec Gv D).
  - rewrite !filter_app. cbn [filter]. rewrite On, app_nil_r. exact IH.
Qed.
Lemma change_writes k : In k S -> op_cell (k_c k) = (a, n) -> changes (k_c k) (k_r k) -> k_w k = true.
Proof.
  intros I Ec Ch. destruct (k_w k) eqn:Wk; [reflexivity|exfalso]. pose proof (gd_val _ _ _ (is_good T G L S GL Pm k I)) as V. rewrite Wk in V. destruct V as (St & Em & _).
  destruct Ch as [Ch|(x & y & Tk & Pu & Ne)]; [congruence|]. pose proof (gd_done _ _ _ (is_good T G L S GL Pm k I)) as D. rewrite Em in D.
  pose proof (step_of T _ _ _ _ a n (pos_on a n L S Hs Pm k I Ec) Ec (proj2 (on_good T G a n X _ _ _ (call_on T G a n L S GL Pm k I Ec))) D) as Sx.
  apply Ne. unfold step in Sx. destruct (k_c k), (k_r k) as [| |? []]; cbn [takes puts] in *; try contradiction; try contradiction Sx; destruct Sx as [S1 S2]; try destruct S2; congruence.
Qed.
Lemma links : forall m P k Q k1 P0 R, (length P <= m)%nat -> S = P ++ k :: Q -> op_cell (k_c k) = (a, n) -> is_store (k_c k) = false -> own L (a, n) k1 ->
  P = P0 ++ k1 :: R -> (forall k', In k' R -> op_cell (k_c k') = (a, n) -> is_store (k_c k') = false) ->
  exists w' y, carries G a (k_x k1) w' /\ g_rf G a w' y /\ read_of G k y.
Proof.
  induction m as [|m IH]; intros P k Q k1 P0 R Le Es Ec St O1 Ep1 NS; [subst P; destruct P0; cbn in Le; lia|].
  assert (In k S) as I by (rewrite Es; apply in_or_app; right; now left). assert (In k L) as IL by (exact (in_L L S Pm k I)).
  assert (incl P L) as Inc by (intros z Z; apply (in_L L S Pm); rewrite Es; apply in_or_app; now left). pose proof (pos_on a n L S Hs Pm k I Ec) as Pn.
  assert (in_cell (k_c k) a) as Ca by (unfold in_cell; rewrite Ec; cbn; lia). assert (In k1 P) as J by (rewrite Ep1; apply in_or_app; right; now left).
  destruct (last_val T G Sm L Hc P a k Inc IL Ca) as [[_ N]|(P1 & n3 & P2 & Ep & O3 & _ & N)]; rewrite Ec in *; [exfalso; exact (N k1 O1 J)|].
  destruct (reads_last T G X Sm W L GL Inj All (cc_code _ C) Hc Hs S Pm So P k Q Es Nd a P1 n3 P2 St Ca Ep) as (w' & y & Cr & F & Ro); [now rewrite Ec|now rewrite Ec|].
  rewrite Ep in J. apply in_app_or in J. destruct J as [J|[<-|J]]; [|exists w', y; auto|exfalso; exact (N k1 O1 J)].
  pose proof O3 as (I3 & E3 & W3). assert (S = P1 ++ n3 :: (P2 ++ k :: Q)) as Es3 by (rewrite Es, Ep, <- app_assoc; reflexivity).
  assert (In n3 S) as J3 by (rewrite Es3; apply in_or_app; right; now left).
  destruct (in_split _ _ J) as (P0' & R' & Ej). assert (NoDup P) as NP by (rewrite Es in Nd; exact (nodup_app_l _ _ Nd)).
  assert (P0' = P0) as ->. { apply (nodup_split_eq k1 P NP P0' (R' ++ n3 :: P2) P0 R); [|exact Ep1]. rewrite Ep, Ej, <- app_assoc. reflexivity. }
  assert (R = R' ++ n3 :: P2) as ->. { rewrite Ep, Ej, <- app_assoc in Ep1. apply app_inv_head in Ep1. cbn [app] in Ep1. now injection Ep1. }
  assert (is_store (k_c n3) = false) as St3 by (apply NS; [apply in_or_app; right; now left|exact E3]).
  destruct (IH P1 n3 (P2 ++ k :: Q) k1 P0 R') as (w3 & y3 & Cr3 & F3 & [[Q3 _]|[_ Rp]]); auto; [rewrite Ep, app_length in Le; cbn in Le; lia|intros k' K'; apply NS; apply in_or_app; now left|congruence|].
  exists w', y. split; [|auto]. apply (carries_app G a _ (k_x n3)); [|exact Cr]. apply (cr_rmw G a _ w3 y3 (k_x n3) Cr3 F3 Rp).
  - apply (w_byte T G L GL n3 a I3 W3). apply (in_cov T G Sm L GL n3 a I3). unfold in_cell. rewrite E3. cbn. lia.
  - exact (node_rmw T G X Sm W n3 y3 (is_good T G L S GL Pm n3 J3) St3 W3 Rp).
Qed.
Lemma synced P0 k1 R k Q : S = P0 ++ k1 :: R ++ k :: Q -> op_cell (k_c k1) = (a, n) -> op_cell (k_c k) = (a, n) -> changes (k_c k1) (k_r k1) ->
  (forall k', In k' R -> op_cell (k_c k') = (a, n) -> is_store (k_c k') = false) -> is_store (k_c k) = false ->
  releases (weff (k_c k1)) = true -> acquires (eff (k_c k) (k_r k)) = true -> syncs G (k_t k1, k_q k1) (k_t k, k_q k).
Proof.
  intros Es E1 E2 Ch NS St Rl Aq. assert (In k1 S) as J1 by (rewrite Es; apply in_or_app; right; now left).
  assert (S = (P0 ++ k1 :: R) ++ k :: Q) as Es' by (now rewrite Es, <- app_assoc). assert (In k S) as J2 by (rewrite Es'; apply in_or_app; right; now left).
  pose proof (change_writes k1 J1 E1 Ch) as W1.
  destruct (links (length (P0 ++ k1 :: R)) (P0 ++ k1 :: R) k Q k1 P0 R (le_n _) Es' E2 St) as (w' & y & Cr & F & Ro); [split; [exact (in_L L S Pm k1 J1)|split; assumption]|reflexivity|exact NS|].
  destruct (gd_call _ _ _ (is_good T G L S GL Pm k1 J1)) as (its1 & C1 & _). destruct (read_of_it T G Ie W X L S GL Pm k y J2 St Ro) as (its & Ca & Hr).
  exists (k_c k1), (k_r k1), its1, (k_c k), (k_r k), its, (k_x k1), y. cbn [fst snd]. split; [exact C1|]. split; [exact Rl|].
  split; [exact (write_of_it T G L S GL Pm k1 its1 J1 W1 C1)|]. split; [exact Ca|]. split; [exact St|]. split; [exact Aq|]. split; [exact Hr|].
  left. exists a, w'. split; [exact (carries_rseq G a _ _ Cr)|exact F].
Qed.
End L.

(* ---- theorems ---- *)
(* The calls on a cell have one order, which contains those of each thread in program order, in which each finds the value that the one before has left, and in
   which an acquiring call is synchronized with every earlier releasing one from which no store separates it. *)
Theorem C48_history T G a n : t_ie T = None -> t_wf T -> execution T G -> cells_client G ->
  exists l v', history T (rd (t_e T) (g_init G) a n) l v' /\
    NoDup (map e_at l) /\
    (forall t q c r, In (t, q, c, r) l <-> op_cell c = (a, n) /\ exists its, call_at G t q c r its) /\
    (forall t, map (fun p => (e_op p, e_res p)) (filter (fun p => Nat.eqb (fst (e_at p)) t) l) = on_cell a n (calls (g_thr G t))) /\
    (forall l1 p1 l2 p2 l3, l = l1 ++ p1 :: l2 ++ p2 :: l3 -> fst (e_at p1) = fst (e_at p2) -> (snd (e_at p1) < snd (e_at p2))%nat) /\
    (forall l1 p1 l2 p2 l3, l = l1 ++ p1 :: l2 ++ p2 :: l3 -> changes (e_op p1) (e_res p1) -> Forall (fun p => is_store (e_op p) = false) (l2 ++ [p2]) ->
       releases (weff (e_op p1)) = true -> acquires (eff (e_op p2) (e_res p2)) = true -> syncs G (e_at p1) (e_at p2)).
Proof.
  intros Ie W X C. destruct (in_order T G Ie W X C a n) as (L & S & GL & Inj & All & Hc & Hs & Pm & So & Nd & Pj).
  pose proof (is_good T G L S GL Pm) as Gd. pose proof (in_L L S Pm) as InL.
  assert (forall l1 p1 l2 p2 l3, map ent (filter (onC a n) S) = l1 ++ p1 :: l2 ++ p2 :: l3 -> exists P0 k1 R k Q, S = P0 ++ k1 :: R ++ k :: Q /\ p1 = ent k1 /\ p2 = ent k /\
    op_cell (k_c k1) = (a, n) /\ op_cell (k_c k) = (a, n) /\ l2 = map ent (filter (onC a n) R)) as Sp.
  { intros l1 p1 l2 p2 l3 H. apply map_eq_app in H. destruct H as (F1 & F2 & H & _ & H2). apply map_eq_cons in H2. destruct H2 as (k1 & F3 & -> & <- & H3).
    apply map_eq_app in H3. destruct H3 as (F4 & F5 & -> & <- & H5). apply map_eq_cons in H5. destruct H5 as (k & F6 & -> & <- & _).
    destruct (filter_split _ _ _ _ _ H) as (P0 & Q0 & Es & _ & H6 & O1). destruct (filter_split _ _ _ _ _ H6) as (R & Q & -> & HR & _ & O2).
    exists P0, k1, R, k, Q. split; [exact Es|]. split; [reflexivity|]. split; [reflexivity|]. split; [now apply onC_spec|]. split; [now apply onC_spec|]. now rewrite HR. }
  exists (map ent (filter (onC a n) S)), (rd (t_e T) (mem_after G (filter (onC a n) S)) a n). split; [|split; [|split; [|split; [|split]]]].
  - exact (replayed T G Ie W X C a n L S GL Inj All Hc Hs Pm So Nd S [] (eq_sym (app_nil_r S))).
  - rewrite map_map. assert (forall l, incl l L -> NoDup l -> NoDup (map (fun k => e_at (ent k)) l)) as Q.
    { induction l as [|k l IH]; intros Inc N; [constructor|]. apply NoDup_cons_iff in N. destruct N as [N1 N2]. cbn [map]. constructor; [|apply IH; auto; intros z Z; apply Inc; now right].
      intros I. apply in_map_iff in I. destruct I as (k' & Ek & I). unfold e_at, ent in Ek. cbn in Ek. injection Ek as Et Eq. apply N1.
      rewrite <- (Inj k' k); auto; apply Inc; [now right|now left]. }
    apply Q; [intros z Z; apply InL; apply filter_In in Z; exact (proj1 Z)|]. now apply NoDup_filter.
  - intros t q c r. rewrite in_map_iff. split.
    + intros (k & Ek & I). unfold ent in Ek. injection Ek as <- <- <- <-. apply filter_In in I. destruct I as [I O]. split; [now apply onC_spec|]. destruct (gd_call _ _ _ (Gd k I)) as (its & Ca & _). eauto.
    + intros [Ec (its & Ca)]. destruct (All _ _ _ _ _ Ca) as (k & I & <- & <-). pose proof (Permutation_in _ Pm I) as J. destruct (gd_call _ _ _ (Gd k J)) as (its' & Ca' & _).
      unfold call_at in *. rewrite Ca in Ca'. injection Ca' as -> -> _. exists k. split; [reflexivity|]. apply filter_In. split; [exact J|now apply onC_spec].
  - intros t. rewrite <- Pj. clear. induction (filter (onC a n) S) as [|k l IH]; [reflexivity|]. cbn [map filter]. change (fst (e_at (ent k))) with (k_t k). unfold thr at 1. cbv beta.
    destruct (Nat.eqb (k_t k) t); cbn [map]; now rewrite IH.
  - intros l1 p1 l2 p2 l3 H Et. destruct (Sp _ _ _ _ _ H) as (P0 & k1 & R & k & Q & Es & -> & -> & E1 & E2 & _). unfold e_at, ent in *. cbn [fst snd] in *.
    assert (~ first G k k1) as Nf. { rewrite Es in So. apply ss_app in So. destruct So as (_ & So & _). inversion So as [|? ? _ F]; subst. rewrite Forall_forall in F. apply F. apply in_or_app. right. now left. }
    destruct (Nat.lt_trichotomy (k_q k1) (k_q k)) as [Lt|[Eq|Gt]]; [exact Lt| |].
    + exfalso. assert (k1 = k) as ->. { apply Inj; auto; apply InL; rewrite Es; apply in_or_app; right; [now left|right; apply in_or_app; right; now left]. }
      rewrite Es in Nd. apply NoDup_remove_2 in Nd. apply Nd. apply in_or_app. right. apply in_or_app. right. now left.
    + exfalso. apply Nf. split; [congruence|]. left. split; [congruence|exact Gt].
  - intros l1 p1 l2 p2 l3 H Ch NS Rl Aq. destruct (Sp _ _ _ _ _ H) as (P0 & k1 & R & k & Q & Es & -> & -> & E1 & E2 & ->). unfold e_at, e_op, e_res, ent in *. cbn [fst snd] in *.
    apply Forall_app in NS. destruct NS as [NS St]. apply Forall_inv in St. cbn [fst snd] in St.
    apply (synced T G Ie W X C a n L S GL Inj All Hc Hs Pm So Nd P0 k1 R k Q Es E1 E2 Ch); auto.
    intros k' K' Ec. rewrite Forall_forall in NS. apply (NS (ent k')). apply in_map, filter_In. split; [exact K'|now apply onC_spec].
Qed.
(* Of two calls that change a cell nobody stores to, and that both acquire and release, one synchronizes with the other. *)
Theorem C48_ordered T G a n t1 q1 c1 r1 its1 t2 q2 c2 r2 its2 : t_ie T = None -> t_wf T -> execution T G -> cells_client G ->
  (forall t q c r its, call_at G t q c r its -> op_cell c = (a, n) -> is_store c = false) ->
  call_at G t1 q1 c1 r1 its1 -> call_at G t2 q2 c2 r2 its2 -> op_cell c1 = (a, n) -> op_cell c2 = (a, n) -> (t1, q1) <> (t2, q2) ->
  changes c1 r1 -> changes c2 r2 -> releases (weff c1) = true -> releases (weff c2) = true -> acquires (eff c1 r1) = true -> acquires (eff c2 r2) = true ->
  syncs G (t1, q1) (t2, q2) \/ syncs G (t2, q2) (t1, q1).
Proof.
  intros Ie W X C NS C1 C2 E1 E2 Ne Ch1 Ch2 R1 R2 A1 A2. destruct (C48_history T G a n Ie W X C) as (l & v' & _ & _ & Mem & _ & _ & Sy).
  assert (In (t1, q1, c1, r1) l) as I1 by (apply Mem; eauto). assert (In (t2, q2, c2, r2) l) as I2 by (apply Mem; eauto).
  assert (forall l', incl l' l -> Forall (fun p => is_store (e_op p) = false) l') as Fs.
  { intros l' Inc. apply Forall_forall. intros [[[t q] c] r] I. apply Inc, Mem in I. destruct I as [Ec (its & Ca)]. exact (NS _ _ _ _ _ Ca Ec). }
  destruct (in_split _ _ I1) as (L1 & L2 & El). rewrite El in I2. apply in_app_or in I2. destruct I2 as [I2|[I2|I2]]; [|congruence|].
  - right. destruct (in_split _ _ I2) as (M1 & M2 & ->). rewrite <- app_assoc in El. cbn [app] in El.
    apply (Sy M1 (t2, q2, c2, r2) M2 (t1, q1, c1, r1) L2 El); auto. apply Fs. intros z Z. rewrite El. apply in_or_app. right. right. apply in_app_or in Z. apply in_or_app. destruct Z as [Z|[Z|[]]]; [now left|right; now left].
  - left. destruct (in_split _ _ I2) as (M1 & M2 & ->). apply (Sy L1 (t1, q1, c1, r1) M1 (t2, q2, c2, r2) M2 El); auto.
    apply Fs. intros z Z. rewrite El. apply in_or_app. right. right. apply in_app_or in Z. apply in_or_app. destruct Z as [Z|[Z|[]]]; [now left|right; now left].
Qed.
