(* C46: reference counts under weak memory: the count reaches zero once, and what is done after that happens after all uses before. *)
From Verif Require Import Prop_sc All_atomic SeqCst Publish Prop_hb CellSeq Prop_cell Prop_count.
From Coq Require Import Permutation Sorted.

(* ---- specification ---- *)
(* The cell holds a count: it is only read and compare-exchanged, and nobody who finds 0 changes it. *)
Record counted (G : graph) (a n : Z) : Prop := {
  ct_only : forall t cr, In cr (on_cell a n (calls (g_thr G t))) -> cas_only cr;
  ct_live : forall t cr x y, In cr (on_cell a n (calls (g_thr G t))) -> wins cr = Some (x, y) -> x <> 0
}.
(* the call makes the count 0, or finds it 0 *)
Definition sees_zero (cr : op * rval) : Prop :=
  match cr with
  | (OLoad _ _ _, RVal v) | (OCas _ _ _ _ _ _, RCas v false) | (OCasWeak _ _ _ _ _ _, RCas v false) => v = 0
  | (OCas _ _ _ _ _ y, RCas _ true) | (OCasWeak _ _ _ _ _ y, RCas _ true) => y = 0
  | _ => False
  end.

(* ---- machinery ---- *)
Lemma carries_app G b x y z : carries G b x y -> carries G b y z -> carries G b x z.
Proof. intros H K. induction K as [w|w w' r1 w1 K IH F R W Li]; [exact H|]. exact (cr_rmw G b x w' r1 w1 (IH H) F R W Li). Qed.
Lemma rseq_snoc G (P : eid -> eid -> Prop) b w w' r1 w1 : rseq G P w w' -> g_rf G b w' r1 -> rmw_pair G r1 w1 -> writes_b G w1 b -> P r1 w1 -> rseq G P w w1.
Proof. intros H F R W Q. induction H as [w|b' w r2 w2 w' F2 R2 W2 Q2 H IH]; [exact (rs_rmw G P b w r1 w1 w1 F R W Q (rs_head G P w1))|]. exact (rs_rmw G P b' w r2 w2 w1 F2 R2 W2 Q2 (IH F)). Qed.
Lemma carries_rseq G b w w' : carries G b w w' -> rseq G (lib_rmw G) w w'.
Proof. induction 1 as [w|w w' r1 w1 H IH F R W Li]; [constructor|]. exact (rseq_snoc G _ b w w' r1 w1 IH F R W Li). Qed.

Lemma zero_step T c r m m' a n : 0 < n -> op_cell c = (a, n) -> good_vals n c -> op_done T c m m' r -> sees_zero (c, r) -> rd (t_e T) m' a n = 0.
Proof.
  intros Pn E V D Z. assert (cas_only (c, r)) as Co by (destruct c, r as [| |? []]; cbn in *; tauto).
  pose proof (win_step T c r m m' a n Pn E Co V D) as Sx. rewrite op_done_as in D.
  destruct c; cbn [cas_only fst] in Co; try contradiction Co; destruct r as [| |? []]; cbn [sees_zero wins op_cell] in *; try contradiction Z; injection E as -> ->; subst.
  - cbn in D. destruct D as [D _]. congruence.
  - destruct Sx as [_ Sx]. congruence.
  - rewrite Sx. symmetry. cbn [as_done] in D. match type of D with context [if ?b then _ else _] => destruct b end; exact (proj1 D).
  - destruct Sx as [_ Sx]. congruence.
  - rewrite Sx. symmetry. exact (proj1 D).
Qed.

Lemma nodup_split_eq {A} (x : A) l : NoDup l -> forall p q p' q', l = p ++ x :: q -> l = p' ++ x :: q' -> p = p'.
Proof.
  intros N p. revert l N. induction p as [|z p IH]; intros l N q p' q' E E'.
  - destruct p' as [|z' p']; [reflexivity|exfalso]. rewrite E in E', N. cbn in E', N. injection E' as -> E'. apply NoDup_cons_iff in N. apply (proj1 N). rewrite E'. apply in_or_app. right. now left.
  - destruct p' as [|z' p']; rewrite E in E', N; cbn in E', N; injection E' as Ez E'; apply NoDup_cons_iff in N; destruct N as [N1 N2].
    + exfalso. apply N1. rewrite Ez. apply in_or_app. right. now left.
    + subst z'. f_equal. exact (IH _ N2 q p' q' eq_refl E').
Qed.
Section P.
Context (T : arch) (G : graph) (Ie : t_ie T = None) (W : t_wf T) (X : execution T G) (C : cells_client G) (a n : Z) (K : counted G a n).
Notation Sm := (smp_ie T Ie).
Notation Sa := (ex_sane T G X).
(* all calls, in an order in which they explain each other's results (as in C44_interleaving) *)
Lemma in_order : exists L S, Forall (good T G) L /\ (forall k k', In k L -> In k' L -> k_t k = k_t k' -> k_q k = k_q k' -> k = k') /\
  (forall t q c r its, call_at G t q c r its -> exists k, In k L /\ k_t k = t /\ k_q k = q) /\
  (forall k k', In k L -> In k' L -> op_cell (k_c k) = op_cell (k_c k') \/ disjoint (op_cell (k_c k)) (op_cell (k_c k'))) /\
  (forall k, In k L -> an_integer (snd (op_cell (k_c k)))) /\ Permutation L S /\ StronglySorted (fun x y => ~ first G y x) S /\ NoDup S /\
  (forall t, map k_cr (filter (thr t) (filter (onC a n) S)) = on_cell a n (calls (g_thr G t))).
Proof.
  destruct C as [HCode HCells HSz (N & HN)]. destruct (all_list T G X Sm W N) as (L & HL & HT).
  assert (Forall (good T G) L) as GL.
  { apply Forall_forall. intros k I. rewrite Forall_forall in HL. destruct (HT (k_t k) (HL k I)) as (F & _). rewrite Forall_forall in F. apply F. apply filter_In. split; [exact I|]. apply Nat.eqb_refl. }
  assert (forall k k', In k L -> In k' L -> k_t k = k_t k' -> k_q k = k_q k' -> k = k') as Inj.
  { intros k k' I I' Et Eq. rewrite Forall_forall in HL. destruct (HT (k_t k) (HL k I)) as (_ & _ & _ & So & _).
    apply (ss_inj k_q _ k k' So); auto; apply filter_In; split; auto; unfold thr; [apply Nat.eqb_refl|rewrite Et; apply Nat.eqb_refl]. }
  assert (forall t q c r its, call_at G t q c r its -> exists k, In k L /\ k_t k = t /\ k_q k = q) as All.
  { intros t q c r its Ca. assert (t < N)%nat as Lt. { destruct (Nat.lt_ge_cases t N) as [Lt|Ge]; [exact Lt|]. unfold call_at in Ca. rewrite (HN t Ge) in Ca. destruct q; discriminate Ca. }
    destruct (HT t Lt) as (_ & Ft & _ & _ & Kk). destruct (Kk q c r its Ca) as (k & I & E). exists k. apply filter_In in I. destruct I as [I J]. split; [exact I|]. split; [now apply Nat.eqb_eq|exact E]. }
  destruct (topo (first G) (length L) L eq_refl) as (S & Pm & So).
  { intros x y Ix Iy. exact (first_dec T G X Sm L GL Inj x y Ix Iy). }
  { exact (first_acyclic T G X Sm L GL). }
  assert (NoDup L) as Nd.
  { assert (forall l, Forall (fun k => In k L) l -> (forall t, NoDup (map k_q (filter (thr t) l))) -> NoDup l) as Q.
    { induction l as [|k l IH]; intros F H; [constructor|]. inversion F as [|? ? F1 F2]; subst. constructor.
      - intros I. specialize (H (k_t k)). cbn [filter] in H. unfold thr at 1 in H. rewrite Nat.eqb_refl in H. cbn [map] in H. apply NoDup_cons_iff in H. destruct H as [H _]. apply H.
        apply in_map. apply filter_In. split; [exact I|apply Nat.eqb_refl].
      - apply IH; auto. intros t. specialize (H t). cbn [filter] in H. destruct (thr t k); [cbn [map] in H; now apply NoDup_cons_iff in H|exact H]. }
    apply Q; [apply Forall_forall; auto|]. intros t. destruct (Nat.lt_ge_cases t N) as [Lt|Ge].
    - apply ss_nodup. apply (HT t Lt).
    - rewrite filter_none; [constructor|]. eapply Forall_impl; [|exact HL]. intros k Hk. unfold thr. apply Nat.eqb_neq. cbv beta in Hk. lia. }
  exists L, S. split; [exact GL|]. split; [exact Inj|]. split; [exact All|]. split; [|split; [|split; [exact Pm|split; [exact So|split; [exact (Permutation_NoDup Pm Nd)|]]]]].
  - intros k k' I I'. rewrite Forall_forall in GL. destruct (gd_call _ _ _ (GL k I)) as (its & Ca & _), (gd_call _ _ _ (GL k' I')) as (its' & Ca' & _). exact (HCells _ _ _ _ _ _ _ _ _ _ Ca Ca').
  - intros k I. rewrite Forall_forall in GL. destruct (gd_call _ _ _ (GL k I)) as (its & Ca & _). exact (HSz _ _ _ _ _ Ca).
  - intros t. symmetry. destruct (Nat.lt_ge_cases t N) as [Lt|Ge].
    + destruct (HT t Lt) as (_ & Ft & <- & Sq & _). rewrite <- on_map. f_equal. rewrite (filter_comm (onC a n)). apply (sorted_unique k_q).
      * apply perm_filter, perm_filter. exact Pm.
      * rewrite filter_comm. exact (ss_filter _ (onC a n) _ Sq).
      * apply ss_strict.
        -- pose proof (ss_filter _ (thr t) _ (ss_filter _ (onC a n) _ So)) as Z. clear - Z.
           assert (Forall (fun k => k_t k = t /\ op_cell (k_c k) = (a, n)) (filter (thr t) (filter (onC a n) S))) as F0.
           { apply Forall_forall; intros k I; apply filter_In in I; destruct I as [I J]; apply filter_In in I; destruct I as [_ I]. split; [now apply Nat.eqb_eq|now apply onC_spec]. }
           induction Z as [|x l Z IH F]; [constructor|]. inversion F0 as [|? ? [F1 F3] F2]; subst. constructor; auto. rewrite Forall_forall in *. intros y Y.
           destruct (Nat.le_gt_cases (k_q x) (k_q y)) as [Q|Q]; [exact Q|]. exfalso. apply (F y Y). destruct (F2 y Y) as [F4 F5]. split; [congruence|]. left. split; [congruence|exact Q].
        -- apply Permutation_NoDup with (map k_q (filter (thr t) (filter (onC a n) L))); [apply Permutation_map, perm_filter, perm_filter; exact Pm|].
           rewrite filter_comm. apply ss_nodup. exact (ss_filter _ (onC a n) _ Sq).
    + rewrite (HN t Ge). rewrite (filter_none (thr t)); [reflexivity|]. apply Forall_forall. intros k I. apply filter_In in I. destruct I as [I _]. apply (Permutation_in _ (Permutation_sym Pm)) in I. rewrite Forall_forall in HL. pose proof (HL k I) as Q. unfold thr. apply Nat.eqb_neq. cbv beta in Q. lia.
Qed.

Section L.
Context (L S : list node) (GL : Forall (good T G) L) (Inj : forall k k', In k L -> In k' L -> k_t k = k_t k' -> k_q k = k_q k' -> k = k')
  (All : forall t q c r its, call_at G t q c r its -> exists k, In k L /\ k_t k = t /\ k_q k = q)
  (Hc : forall k k', In k L -> In k' L -> op_cell (k_c k) = op_cell (k_c k') \/ disjoint (op_cell (k_c k)) (op_cell (k_c k')))
  (Hs : forall k, In k L -> an_integer (snd (op_cell (k_c k)))) (Pm : Permutation L S) (So : StronglySorted (fun x y => ~ first G y x) S) (Nd : NoDup S).
Notation E := (t_e T).
Notation state P := (rd E (mem_after G (filter (onC a n) P)) a n).
Lemma S_in k : In k S -> In k L.
Proof. exact (Permutation_in _ (Permutation_sym Pm)). Qed.
Lemma S_good k : In k S -> good T G k.
Proof. intros I. rewrite Forall_forall in GL. exact (GL k (S_in k I)). Qed.
Lemma on_call k : In k S -> op_cell (k_c k) = (a, n) -> In (k_cr k) (on_cell a n (calls (g_thr G (k_t k)))).
Proof.
  intros I Ec. destruct (gd_call _ _ _ (S_good k I)) as (its & Ca & _). apply filter_In. split; [apply in_flat_map; eexists; split; [exact (nth_error_In _ _ Ca)|now left]|]. unfold k_cr. cbn [fst]. rewrite Ec. cbn [fst snd]. now rewrite !Z.eqb_refl.
Qed.
Lemma on_pos k : In k S -> op_cell (k_c k) = (a, n) -> 0 < n.
Proof. intros I Ec. pose proof (Hs k (S_in k I)) as Q. rewrite Ec in Q. cbn in Q. unfold an_integer in Q. lia. Qed.
Lemma on_state P k Q : S = P ++ k :: Q -> op_cell (k_c k) = (a, n) -> 0 < n /\ good_vals n (k_c k) /\ cas_only (k_cr k) /\
  (forall x y, wins (k_cr k) = Some (x, y) -> x <> 0) /\ op_done T (k_c k) (mem_after G (filter (onC a n) P)) (mem_after G (filter (onC a n) (P ++ [k]))) (k_r k).
Proof.
  intros Es Ec. assert (In k S) as I by (rewrite Es; apply in_or_app; right; now left). pose proof (on_call k I Ec) as J. split; [exact (on_pos k I Ec)|].
  split; [exact (proj2 (on_good T G a n X _ _ _ J))|]. split; [exact (ct_only _ _ _ K _ _ J)|]. split; [intros x y; exact (ct_live _ _ _ K _ _ _ _ J)|].
  assert (onC a n k = true) as On by now apply onC_spec. rewrite filter_app. cbn [filter]. rewrite On.
  exact (replay_one T G X Sm W L GL Inj All (cc_code _ C) Hc Hs S Pm So a n P k Q Es Nd On).
Qed.
Lemma stays0 : forall Q P R, S = P ++ Q ++ R -> state P = 0 -> state (P ++ Q) = 0.
Proof.
  induction Q as [|k Q IH]; intros P R Es H; [now rewrite app_nil_r|]. replace (P ++ k :: Q) with ((P ++ [k]) ++ Q) by (now rewrite <- app_assoc).
  apply (IH (P ++ [k]) R); [now rewrite <- app_assoc|]. destruct (cell_dec (op_cell (k_c k)) (a, n)) as [Ec|Ec].
  - destruct (on_state P k (Q ++ R) Es Ec) as (Pn & Gv & Co & Lv & D). pose proof (win_step T _ _ _ _ a n Pn Ec Co Gv D) as Sx.
    change (k_c k, k_r k) with (k_cr k) in Sx. destruct (wins (k_cr k)) as [[x y]|] eqn:Ew; [exfalso; apply (Lv x y eq_refl); destruct Sx; congruence|congruence].
  - rewrite filter_app. cbn [filter]. assert (onC a n k = false) as -> by (destruct (onC a n k) eqn:Q0; [apply onC_spec in Q0; contradiction|reflexivity]). now rewrite app_nil_r.
Qed.
(* a call that sees zero comes after all that change the count *)
Lemma zero_last k1 k2 x y : In k1 S -> In k2 S -> op_cell (k_c k1) = (a, n) -> op_cell (k_c k2) = (a, n) -> k1 <> k2 -> wins (k_cr k1) = Some (x, y) -> sees_zero (k_cr k2) ->
  exists P Q, S = P ++ k2 :: Q /\ In k1 P.
Proof.
  intros I1 I2 E1 E2 Ne Wi Z. destruct (in_split _ _ I2) as (P & Q & Es). exists P, Q. split; [exact Es|]. pose proof I1 as J. rewrite Es in J. apply in_app_or in J. destruct J as [J|[J|J]]; [exact J|congruence|exfalso].
  destruct (in_split _ _ J) as (Q1 & Q2 & Eq). subst Q. destruct (on_state P k2 (Q1 ++ k1 :: Q2) Es E2) as (Pn & Gv & _ & _ & D).
  pose proof (zero_step T _ _ _ _ a n Pn E2 Gv D Z) as Z0. assert (S = (P ++ [k2]) ++ Q1 ++ k1 :: Q2) as Es' by (now rewrite <- app_assoc).
  pose proof (stays0 Q1 (P ++ [k2]) (k1 :: Q2) Es' Z0) as Z1. rewrite app_assoc in Es'. destruct (on_state _ k1 Q2 Es' E1) as (_ & Gv1 & Co1 & Lv & D1).
  pose proof (win_step T _ _ _ _ a n Pn E1 Co1 Gv1 D1) as Sx. change (k_c k1, k_r k1) with (k_cr k1) in Sx. rewrite Wi in Sx. apply (Lv x y Wi). destruct Sx; congruence.
Qed.
(* the chain of read-modify-writes from a call that changes the count to a later call *)
Lemma cas_reads k : In k S -> op_cell (k_c k) = (a, n) -> is_store (k_c k) = false.
Proof. intros I Ec. pose proof (ct_only _ _ _ K _ _ (on_call k I Ec)) as Co. unfold cas_only, k_cr in Co. cbn [fst] in Co. destruct (k_c k); try contradiction Co; reflexivity. Qed.
Lemma chain : forall m P k Q k1, (length P <= m)%nat -> S = P ++ k :: Q -> op_cell (k_c k) = (a, n) -> own L (a, n) k1 -> In k1 P ->
  exists w' y, carries G a (k_x k1) w' /\ g_rf G a w' y /\ read_of G k y.
Proof.
  induction m as [|m IH]; intros P k Q k1 Le Es Ec O1 J; [destruct P; [destruct J|cbn in Le; lia]|].
  assert (In k S) as I by (rewrite Es; apply in_or_app; right; now left). assert (In k L) as IL by (exact (S_in k I)).
  assert (incl P L) as Inc by (intros z Z; apply S_in; rewrite Es; apply in_or_app; now left). pose proof (on_pos k I Ec) as Pn.
  assert (in_cell (k_c k) a) as Ca by (unfold in_cell; rewrite Ec; cbn; lia).
  destruct (last_val T G Sm L Hc P a k Inc IL Ca) as [[_ N]|(P1 & n3 & P2 & Ep & O3 & _ & N)]; rewrite Ec in *; [exfalso; exact (N k1 O1 J)|].
  destruct (reads_last T G X Sm W L GL Inj All (cc_code _ C) Hc Hs S Pm So P k Q Es Nd a P1 n3 P2 (cas_reads k I Ec) Ca Ep) as (w' & y & Cr & F & Ro); [now rewrite Ec|now rewrite Ec|].
  rewrite Ep in J. apply in_app_or in J. destruct J as [J|[<-|J]]; [|exists w', y; auto|exfalso; exact (N k1 O1 J)].
  pose proof O3 as (I3 & E3 & W3). assert (S = P1 ++ n3 :: (P2 ++ k :: Q)) as Es3 by (rewrite Es, Ep, <- app_assoc; reflexivity).
  assert (In n3 S) as J3 by (rewrite Es3; apply in_or_app; right; now left). pose proof (on_pos n3 J3 E3) as _.
  destruct (IH P1 n3 (P2 ++ k :: Q) k1) as (w3 & y3 & Cr3 & F3 & [[Q3 _]|[_ Rp]]); auto; [rewrite Ep, app_length in Le; cbn in Le; lia|congruence|].
  exists w', y. split; [|auto]. apply (carries_app G a _ (k_x n3)); [|exact Cr]. apply (cr_rmw G a _ w3 y3 (k_x n3) Cr3 F3 Rp).
  - apply (w_byte T G L GL n3 a I3 W3). apply (in_cov T G Sm L GL n3 a I3). unfold in_cell. rewrite E3. cbn. lia.
  - exact (node_rmw T G X Sm W n3 y3 (S_good n3 J3) (cas_reads n3 J3 E3) W3 Rp).
Qed.
Lemma read_of_call k y : In k S -> op_cell (k_c k) = (a, n) -> read_of G k y -> exists its, call_at G (k_t k) (k_q k) (k_c k) (k_r k) its /\ the_read G y (k_t k) (k_q k) its.
Proof.
  intros I Ec [[Wk ->]|[Wk Rp]].
  - destruct (gd_sc _ _ _ (S_good k I)) as (r & its & Ca & Sh). destruct (gd_call _ _ _ (S_good k I)) as (its' & Ca' & _). exists its. unfold call_at in *.
    rewrite Ca in Ca'. injection Ca' as -> ->. split; [exact Ca|]. destruct Sh as [[_ Sh]|(F & i & Ei & (_ & (v & Av & Wv) & _))]; [exact Sh|exfalso].
    pose proof (lift_ev G _ _ _ _ _ _ _ _ Ca F Ei Av) as Q. pose proof (gd_ev _ _ _ (S_good k I)) as Q'. unfold k_w, ev_at, at_ in *. congruence.
  - destruct (node_rw T G X Sm W k y (S_good k I) (cas_reads k I Ec) Wk Rp) as (its & Ca & R & _). eauto.
Qed.
Lemma win_writes k x y : In k S -> op_cell (k_c k) = (a, n) -> wins (k_cr k) = Some (x, y) -> x <> y -> k_w k = true.
Proof.
  intros I Ec Wi Ne. destruct (k_w k) eqn:Wk; [reflexivity|exfalso]. pose proof (gd_val _ _ _ (S_good k I)) as V. rewrite Wk in V. destruct V as (_ & Em & _).
  pose proof (gd_done _ _ _ (S_good k I)) as D. rewrite Em in D. pose proof (on_call k I Ec) as J.
  pose proof (win_step T _ _ _ _ a n (on_pos k I Ec) Ec (ct_only _ _ _ K _ _ J) (proj2 (on_good T G a n X _ _ _ J)) D) as Sx. change (k_c k, k_r k) with (k_cr k) in Sx. rewrite Wi in Sx. destruct Sx. congruence.
Qed.
End L.
End P.

(* ---- theorems ---- *)
(* A call that makes the count zero, or finds it zero, comes after every call that has changed it: if it acquires and they release, each of them
   synchronizes with it. *)
Theorem C46_last T G a n t1 q1 c1 r1 its1 t2 q2 c2 r2 its2 x y : t_ie T = None -> t_wf T -> execution T G -> cells_client G -> counted G a n ->
  call_at G t1 q1 c1 r1 its1 -> call_at G t2 q2 c2 r2 its2 -> op_cell c1 = (a, n) -> op_cell c2 = (a, n) -> (t1, q1) <> (t2, q2) ->
  wins (c1, r1) = Some (x, y) -> x <> y -> releases (weff c1) = true -> sees_zero (c2, r2) -> acquires (eff c2 r2) = true -> syncs G (t1, q1) (t2, q2).
Proof.
  intros Ie W X C K C1 C2 E1 E2 Ne Wi Nxy Rl Z Aq. destruct (in_order T G Ie W X C a n) as (L & S & GL & Inj & All & Hc & Hs & Pm & So & Nd & _).
  destruct (All _ _ _ _ _ C1) as (k1 & I1 & <- & <-), (All _ _ _ _ _ C2) as (k2 & I2 & <- & <-).
  pose proof (Permutation_in _ Pm I1) as J1. pose proof (Permutation_in _ Pm I2) as J2.
  rewrite Forall_forall in GL. destruct (gd_call _ _ _ (GL k1 I1)) as (its1' & C1' & Kw1), (gd_call _ _ _ (GL k2 I2)) as (its2' & C2' & _). rewrite <- Forall_forall in GL.
  assert (c1 = k_c k1 /\ r1 = k_r k1 /\ its1 = its1') as (-> & -> & ->) by (unfold call_at in *; rewrite C1 in C1'; injection C1'; auto).
  assert (c2 = k_c k2 /\ r2 = k_r k2 /\ its2 = its2') as (-> & -> & ->) by (unfold call_at in *; rewrite C2 in C2'; injection C2'; auto).
  destruct (zero_last T G Ie W X C a n K L S GL Inj All Hc Hs Pm So Nd k1 k2 x y J1 J2 E1 E2) as (P & Q & Es & J); auto; [congruence|].
  pose proof (win_writes T G X a n K L S GL Hs Pm k1 x y J1 E1 Wi Nxy) as W1.
  destruct (chain T G Ie W X C a n K L S GL Inj All Hc Hs Pm So Nd (length P) P k2 Q k1 (le_n _) Es E2) as (w' & yr & Cr & F & Ro); [split; [exact I1|]; split; [exact E1|exact W1]|exact J|].
  destruct (read_of_call T G Ie W X a n K L S GL Pm k2 yr J2 E2 Ro) as (its & Ca & Hr).
  exists (k_c k1), (k_r k1), its1', (k_c k2), (k_r k2), its, (k_x k1), yr. cbn [fst snd]. split; [exact C1|]. split; [exact Rl|]. split.
  { destruct (gd_sc _ _ _ (proj1 (Forall_forall _ _) GL k1 I1)) as (r & its' & Ca1 & Sh). unfold call_at in *. rewrite C1 in Ca1. injection Ca1 as <- <-.
    destruct Sh as [[_ (Fx & i & Ei & Ri)]|(Fx & i & Ei & (_ & Wr & _))]; [exfalso|split; [exact Fx|eauto]].
    assert (exists u, at_ its1' i u /\ e_w u = false) as (u & Au & Wu) by (destruct Ri as [(kk & _ & _ & Q0 & _)|(_ & _ & Q0 & _)]; exact Q0).
    pose proof (lift_ev G _ _ _ _ _ _ _ _ C1 Fx Ei Au) as Ev. pose proof (gd_ev _ _ _ (proj1 (Forall_forall _ _) GL k1 I1)) as Ev'. unfold k_w, ev_at, at_ in *. congruence. }
  split; [exact Ca|]. split; [exact (cas_reads T G a n K L S GL Pm k2 J2 E2)|]. split; [exact Aq|]. split; [exact Hr|].
  left. exists a, w'. split; [exact (carries_rseq G a _ _ Cr)|exact F].
Qed.
(* Hence all that a thread has done before it gave up its share happens before what is done after the count has reached zero. *)
Theorem C46_ordered T G a n t1 q1 c1 r1 its1 t2 q2 c2 r2 its2 x y d e : t_ie T = None -> t_wf T -> execution T G -> cells_client G -> counted G a n ->
  call_at G t1 q1 c1 r1 its1 -> call_at G t2 q2 c2 r2 its2 -> op_cell c1 = (a, n) -> op_cell c2 = (a, n) -> (t1, q1) <> (t2, q2) ->
  wins (c1, r1) = Some (x, y) -> x <> y -> releases (weff c1) = true -> sees_zero (c2, r2) -> acquires (eff c2 r2) = true ->
  before G d t1 q1 -> after G e t2 q2 -> happens_before G d e.
Proof.
  intros Ie W X C K C1 C2 E1 E2 Ne Wi Nxy Rl Z Aq B A. right. exists t1, q1, t2, q2. split; [exact B|]. split; [|exact A]. apply re_one.
  exact (C46_last T G a n t1 q1 c1 r1 its1 t2 q2 c2 r2 its2 x y Ie W X C K C1 C2 E1 E2 Ne Wi Nxy Rl Z Aq).
Qed.
(* no use sees what is written after the count has reached zero, and what is read then includes all writes of the uses *)
Theorem C46_no_use_after_free T G a n t1 q1 c1 r1 its1 t2 q2 c2 r2 its2 x y d e b : t_ie T = None -> t_wf T -> execution T G -> cells_client G -> counted G a n ->
  call_at G t1 q1 c1 r1 its1 -> call_at G t2 q2 c2 r2 its2 -> op_cell c1 = (a, n) -> op_cell c2 = (a, n) -> (t1, q1) <> (t2, q2) ->
  wins (c1, r1) = Some (x, y) -> x <> y -> releases (weff c1) = true -> sees_zero (c2, r2) -> acquires (eff c2 r2) = true ->
  before G d t1 q1 -> after G e t2 q2 -> solid G d -> solid G e ->
  (forall w0, g_rf G b w0 d -> writes_b G e b -> w0 <> e /\ g_co G b w0 e) /\ (writes_b G d b -> reads_b G e b -> exists w, g_rf G b w e /\ (w = d \/ g_co G b d w)).
Proof.
  intros Ie W X C K C1 C2 E1 E2 Ne Wi Nxy Rl Z Aq B A Sd Se.
  pose proof (C46_ordered T G a n t1 q1 c1 r1 its1 t2 q2 c2 r2 its2 x y d e Ie W X C K C1 C2 E1 E2 Ne Wi Nxy Rl Z Aq B A) as H. split.
  - intros w0 F Wr. exact (C37_read_write T G Ie W X d e b H Sd Se w0 F Wr).
  - exact (C37_write_read T G Ie W X d e b H Sd Se).
Qed.
(* The count reaches zero at most once, whatever the orderings. *)
Theorem C46_once T G a n t1 q1 c1 r1 its1 x1 t2 q2 c2 r2 its2 x2 : t_ie T = None -> t_wf T -> execution T G -> cells_client G -> counted G a n ->
  call_at G t1 q1 c1 r1 its1 -> call_at G t2 q2 c2 r2 its2 -> op_cell c1 = (a, n) -> op_cell c2 = (a, n) ->
  wins (c1, r1) = Some (x1, 0) -> wins (c2, r2) = Some (x2, 0) -> (t1, q1) = (t2, q2).
Proof.
  intros Ie W X C K C1 C2 E1 E2 W1 W2. destruct (in_order T G Ie W X C a n) as (L & S & GL & Inj & All & Hc & Hs & Pm & So & Nd & _).
  destruct (All _ _ _ _ _ C1) as (k1 & I1 & <- & <-), (All _ _ _ _ _ C2) as (k2 & I2 & <- & <-).
  pose proof (Permutation_in _ Pm I1) as J1. pose proof (Permutation_in _ Pm I2) as J2.
  rewrite Forall_forall in GL. destruct (gd_call _ _ _ (GL k1 I1)) as (its1' & C1' & _), (gd_call _ _ _ (GL k2 I2)) as (its2' & C2' & _). rewrite <- Forall_forall in GL.
  assert (c1 = k_c k1 /\ r1 = k_r k1) as (-> & ->) by (unfold call_at in *; rewrite C1 in C1'; injection C1'; auto).
  assert (c2 = k_c k2 /\ r2 = k_r k2) as (-> & ->) by (unfold call_at in *; rewrite C2 in C2'; injection C2'; auto).
  destruct (eid_dec (k_x k1) (k_x k2)) as [Q|Q]; [rewrite (x_inj T G L GL Inj k1 k2 I1 I2 Q); reflexivity|exfalso]. assert (k1 <> k2) as Ne by congruence.
  assert (forall k x, wins (k_cr k) = Some (x, 0) -> sees_zero (k_cr k)) as Sz.
  { intros [t q c r xx v m m'] x. unfold k_cr. cbn [k_c k_r]. destruct c, r as [| |? []]; cbn; intros H; try discriminate H; injection H; auto. }
  destruct (zero_last T G Ie W X C a n K L S GL Inj All Hc Hs Pm So Nd k1 k2 x1 0 J1 J2 E1 E2 Ne W1 (Sz k2 x2 W2)) as (P & R & Es & J).
  destruct (zero_last T G Ie W X C a n K L S GL Inj All Hc Hs Pm So Nd k2 k1 x2 0 J2 J1 E2 E1 (not_eq_sym Ne) W2 (Sz k1 x1 W1)) as (P' & R' & Es' & J').
  destruct (in_split _ _ J) as (P1 & P2 & ->). destruct (in_split _ _ J') as (P1' & P2' & ->). rewrite <- app_assoc in Es, Es'. cbn [app] in Es, Es'.
  (* k1 before k2 before k1 in a list without duplicates *)
  assert (P1 = P1' ++ k2 :: P2') as ->.
  { apply (nodup_split_eq k1 S Nd P1 (P2 ++ k2 :: R) (P1' ++ k2 :: P2') R'); [exact Es|rewrite <- app_assoc; exact Es']. }
  rewrite Es in Nd. rewrite <- app_assoc in Nd. cbn [app] in Nd. apply NoDup_remove_2 in Nd. apply Nd. apply in_or_app. right. apply in_or_app. right. right. apply in_or_app. right. now left.
Qed.
