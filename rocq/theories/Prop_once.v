(* C47: publication by value and one-time initialization: who finds the value is ordered after who has put it there. *)
From Verif Require Import Prop_sc All_atomic SeqCst Publish Prop_hb CellSeq Prop_cell Prop_count Prop_arc.
From Coq Require Import Permutation Sorted.

(* ---- specification ---- *)
(* the call returns [x] as the contents of its cell *)
Definition finds (x : Z) (cr : op * rval) : Prop :=
  match cr with
  | (OLoad _ _ _, RVal v) | (OSwap _ _ _ _, RVal v) | (OCas _ _ _ _ _ _, RCas v _) | (OCasWeak _ _ _ _ _ _, RCas v _) => v = x
  | _ => False
  end.

(* ---- machinery ---- *)
Lemma finds_step T c r m m' a n x : op_cell c = (a, n) -> op_done T c m m' r -> finds x (c, r) -> rd (t_e T) m a n = x /\ is_store c = false.
Proof.
  intros E D F. rewrite op_done_as in D. destruct c; cbn [as_done] in D; try (match type of D with context [if ?b then _ else _] => destruct b end);
    destruct r; cbn [op_cell op_spec finds is_store] in *; try contradiction D; try contradiction F; injection E as -> ->; subst.
  - destruct D as [D _]. auto.
  - destruct D as [D _]. auto.
  - destruct D as [D _]. auto.
  - destruct D as [D _]. auto.
  - destruct D as [D _]. auto.
Qed.
Lemma puts_dec x cr : puts x cr \/ ~ puts x cr.
Proof. destruct cr as [c r]. destruct c, r as [| |? []]; cbn; try tauto; match goal with |- ?u = ?v \/ _ => destruct (Z.eq_dec u v); auto end. Qed.
Lemma store_puts T c r m m' a n x : 0 < n -> op_cell c = (a, n) -> good_vals n c -> op_done T c m m' r -> is_store c = true -> rd (t_e T) m' a n = x -> puts x (c, r).
Proof.
  intros Pn E V D St Q. rewrite op_done_as in D. destruct c; try discriminate St. destruct r; cbn in D; try contradiction D. injection E as -> ->. cbn [puts good_vals] in *.
  unfold store_spec in D. rewrite (rd_meq _ _ _ _ _ D), rd_wr_any in Q by lia. now rewrite (low_id _ _ V) in Q.
Qed.
Section L.
Context (T : arch) (G : graph) (Ie : t_ie T = None) (W : t_wf T) (X : execution T G) (C : cells_client G) (a n : Z).
Notation Sm := (smp_ie T Ie).
Context (L S : list node) (GL : Forall (good T G) L) (Inj : forall k k', In k L -> In k' L -> k_t k = k_t k' -> k_q k = k_q k' -> k = k')
  (All : forall t q c r its, call_at G t q c r its -> exists k, In k L /\ k_t k = t /\ k_q k = q)
  (Hc : forall k k', In k L -> In k' L -> op_cell (k_c k) = op_cell (k_c k') \/ disjoint (op_cell (k_c k)) (op_cell (k_c k')))
  (Hs : forall k, In k L -> an_integer (snd (op_cell (k_c k)))) (Pm : Permutation L S) (So : StronglySorted (fun x y => ~ first G y x) S) (Nd : NoDup S).
Notation E := (t_e T).
Notation state P := (rd E (mem_after G (filter (onC a n) P)) a n).
Lemma in_L k : In k S -> In k L.
Proof. exact (Permutation_in _ (Permutation_sym Pm)). Qed.
Lemma is_good k : In k S -> good T G k.
Proof. intros I. rewrite Forall_forall in GL. exact (GL k (in_L k I)). Qed.
Lemma call_on k : In k S -> op_cell (k_c k) = (a, n) -> In (k_cr k) (on_cell a n (calls (g_thr G (k_t k)))).
Proof.
  intros I Ec. destruct (gd_call _ _ _ (is_good k I)) as (its & Ca & _). apply filter_In. split; [apply in_flat_map; eexists; split; [exact (nth_error_In _ _ Ca)|now left]|]. unfold k_cr. cbn [fst]. rewrite Ec. cbn [fst snd]. now rewrite !Z.eqb_refl.
Qed.
Lemma pos_on k : In k S -> op_cell (k_c k) = (a, n) -> 0 < n.
Proof. intros I Ec. pose proof (Hs k (in_L k I)) as Q. rewrite Ec in Q. cbn in Q. unfold an_integer in Q. lia. Qed.
Lemma one_step P k Q : S = P ++ k :: Q -> op_cell (k_c k) = (a, n) ->
  0 < n /\ good_vals n (k_c k) /\ op_done T (k_c k) (mem_after G (filter (onC a n) P)) (mem_after G (filter (onC a n) (P ++ [k]))) (k_r k).
Proof.
  intros Es Ec. assert (In k S) as I by (rewrite Es; apply in_or_app; right; now left). split; [exact (pos_on k I Ec)|].
  split; [exact (proj2 (on_good T G a n X _ _ _ (call_on k I Ec)))|].
  assert (onC a n k = true) as On by now apply onC_spec. rewrite filter_app. cbn [filter]. rewrite On.
  exact (replay_one T G X Sm W L GL Inj All (cc_code _ C) Hc Hs S Pm So a n P k Q Es Nd On).
Qed.
Lemma state_keep P Q : incl Q L -> (forall k, own L (a, n) k -> ~ In k Q) -> state (P ++ Q) = state P.
Proof.
  intros Inc N. induction Q as [|k Q IH] using rev_ind; [now rewrite app_nil_r|]. rewrite <- IH; [|intros z Z; apply Inc; apply in_or_app; now left|intros z O Z; apply (N z O); apply in_or_app; now left].
  rewrite app_assoc, (filter_app _ (P ++ Q)). cbn [filter]. destruct (onC a n k) eqn:On; [|now rewrite app_nil_r]. apply onC_spec in On.
  destruct (k_w k) eqn:Wk; [exfalso; apply (N k); [split; [apply Inc; apply in_or_app; right; now left|split; assumption]|apply in_or_app; right; now left]|].
  rewrite mem_snoc. apply rd_meq. intros b. unfold apply1. now rewrite Wk, andb_false_r.
Qed.
Lemma source x : rd E (g_init G) a n <> x -> forall m P k Q, (length P <= m)%nat -> S = P ++ k :: Q -> op_cell (k_c k) = (a, n) -> is_store (k_c k) = false -> state P = x ->
  exists k1 w' y, In k1 P /\ op_cell (k_c k1) = (a, n) /\ puts x (k_cr k1) /\ k_w k1 = true /\ carries G a (k_x k1) w' /\ g_rf G a w' y /\ read_of G k y.
Proof.
  intros Nx. induction m as [|m IH]; intros P k Q Le Es Ec St V; [destruct P; [contradiction (Nx V)|cbn in Le; lia]|].
  assert (In k S) as I by (rewrite Es; apply in_or_app; right; now left). assert (In k L) as IL by (exact (in_L k I)).
  assert (incl P L) as Inc by (intros z Z; apply in_L; rewrite Es; apply in_or_app; now left). pose proof (pos_on k I Ec) as Pn.
  assert (in_cell (k_c k) a) as Ca by (unfold in_cell; rewrite Ec; cbn; lia).
  destruct (last_val T G Sm L Hc P a k Inc IL Ca) as [[_ N]|(P1 & n3 & P2 & Ep & O3 & _ & N)]; rewrite Ec in *.
  { exfalso. apply Nx. rewrite <- V. symmetry. exact (state_keep [] P Inc N). }
  destruct (reads_last T G X Sm W L GL Inj All (cc_code _ C) Hc Hs S Pm So P k Q Es Nd a P1 n3 P2 St Ca Ep) as (w' & y & Cr & F & Ro); [now rewrite Ec|now rewrite Ec|].
  assert (state (P1 ++ [n3]) = x) as V3.
  { rewrite <- V, Ep. replace (P1 ++ n3 :: P2) with ((P1 ++ [n3]) ++ P2) by (now rewrite <- app_assoc). symmetry. apply state_keep; [|exact N]. intros z Z. apply Inc. rewrite Ep. apply in_or_app. right. now right. }
  pose proof O3 as (I3 & E3 & W3). change (op_cell (k_c n3) = (a, n)) in E3. assert (In n3 P) as Ip by (rewrite Ep; apply in_or_app; right; now left).
  destruct (puts_dec x (k_cr n3)) as [Pu|Np]; [exists n3, w', y; auto 10|].
  assert (S = P1 ++ n3 :: (P2 ++ k :: Q)) as Es3 by (rewrite Es, Ep, <- app_assoc; reflexivity). assert (In n3 S) as J3 by (rewrite Es3; apply in_or_app; right; now left).
  destruct (one_step P1 n3 _ Es3 E3) as (_ & Gv & D).
  assert (is_store (k_c n3) = false) as St3. { destruct (is_store (k_c n3)) eqn:Q3; [exfalso; apply Np; exact (store_puts T _ _ _ _ a n x Pn E3 Gv D Q3 V3)|reflexivity]. }
  pose proof (proj1 (taken_step T _ _ _ _ a n x Pn E3 D Gv Np) V3) as V1.
  destruct (IH P1 n3 (P2 ++ k :: Q)) as (k1 & w3 & y3 & J1 & E1 & Pu1 & W1 & Cr3 & F3 & [[Q3 _]|[_ Rp]]); auto; [rewrite Ep, app_length in Le; cbn in Le; lia|congruence|].
  exists k1, w', y. split; [rewrite Ep; apply in_or_app; now left|]. split; [exact E1|]. split; [exact Pu1|]. split; [exact W1|]. split; [|auto].
  apply (carries_app G a _ (k_x n3)); [|exact Cr]. apply (cr_rmw G a _ w3 y3 (k_x n3) Cr3 F3 Rp).
  - apply (w_byte T G L GL n3 a I3 W3). apply (in_cov T G Sm L GL n3 a I3). unfold in_cell. rewrite E3. cbn. lia.
  - exact (node_rmw T G X Sm W n3 y3 (is_good n3 J3) St3 W3 Rp).
Qed.
Lemma read_of_it k y : In k S -> is_store (k_c k) = false -> read_of G k y -> exists its, call_at G (k_t k) (k_q k) (k_c k) (k_r k) its /\ the_read G y (k_t k) (k_q k) its.
Proof.
  intros I St [[Wk ->]|[Wk Rp]].
  - destruct (gd_sc _ _ _ (is_good k I)) as (r & its & Ca & Sh). destruct (gd_call _ _ _ (is_good k I)) as (its' & Ca' & _). exists its. unfold call_at in *.
    rewrite Ca in Ca'. injection Ca' as -> ->. split; [exact Ca|]. destruct Sh as [[_ Sh]|(F & i & Ei & (_ & (v & Av & Wv) & _))]; [exact Sh|exfalso].
    pose proof (lift_ev G _ _ _ _ _ _ _ _ Ca F Ei Av) as Q. pose proof (gd_ev _ _ _ (is_good k I)) as Q'. unfold k_w, ev_at, at_ in *. congruence.
  - destruct (node_rw T G X Sm W k y (is_good k I) St Wk Rp) as (its & Ca & R & _). eauto.
Qed.
Lemma write_of_it k its : In k S -> k_w k = true -> call_at G (k_t k) (k_q k) (k_c k) (k_r k) its -> a_write G (k_x k) (k_t k) (k_q k) its.
Proof.
  intros I W1 C1. destruct (gd_sc _ _ _ (is_good k I)) as (r & its' & Ca1 & Sh). unfold call_at in *. rewrite C1 in Ca1. injection Ca1 as <- <-.
  destruct Sh as [[_ (Fx & i & Ei & Ri)]|(Fx & i & Ei & (_ & Wr & _))]; [exfalso|split; [exact Fx|eauto]].
  assert (exists u, at_ its i u /\ e_w u = false) as (u & Au & Wu) by (destruct Ri as [(kk & _ & _ & Q0 & _)|(_ & _ & Q0 & _)]; exact Q0).
  pose proof (lift_ev G _ _ _ _ _ _ _ _ C1 Fx Ei Au) as Ev. pose proof (gd_ev _ _ _ (is_good k I)) as Ev'. unfold k_w, ev_at, at_ in *. congruence.
Qed.
End L.

(* ---- theorems ---- *)
(* A value that is not the initial one has been put into the cell by another call; if that one releases and the call that finds the value acquires, it
   synchronizes with it, however many read-modify-writes were in between. *)
Theorem C47_publisher T G a n x t2 q2 c2 r2 its2 : t_ie T = None -> t_wf T -> execution T G -> cells_client G ->
  call_at G t2 q2 c2 r2 its2 -> op_cell c2 = (a, n) -> finds x (c2, r2) -> rd (t_e T) (g_init G) a n <> x ->
  exists t1 q1 c1 r1 its1, call_at G t1 q1 c1 r1 its1 /\ op_cell c1 = (a, n) /\ puts x (c1, r1) /\ (t1, q1) <> (t2, q2) /\
    (releases (weff c1) = true -> acquires (eff c2 r2) = true -> syncs G (t1, q1) (t2, q2)).
Proof.
  intros Ie W X C C2 E2 F2 Nx. destruct (in_order T G Ie W X C a n) as (L & S & GL & Inj & All & Hc & Hs & Pm & So & Nd & _).
  destruct (All _ _ _ _ _ C2) as (k2 & I2 & <- & <-). pose proof (Permutation_in _ Pm I2) as J2.
  destruct (gd_call _ _ _ (is_good T G L S GL Pm k2 J2)) as (its2' & C2' & _).
  assert (c2 = k_c k2 /\ r2 = k_r k2 /\ its2 = its2') as (-> & -> & ->) by (unfold call_at in *; rewrite C2 in C2'; injection C2'; auto).
  destruct (in_split _ _ J2) as (P & Q & Es). destruct (one_step T G Ie W X C a n L S GL Inj All Hc Hs Pm So Nd P k2 Q Es E2) as (_ & _ & D).
  destruct (finds_step T _ _ _ _ a n x E2 D F2) as [V St].
  destruct (source T G Ie W X C a n L S GL Inj All Hc Hs Pm So Nd x Nx (length P) P k2 Q (le_n _) Es E2 St V) as (k1 & w' & y & Ip & E1 & Pu & W1 & Cr & F & Ro).
  assert (In k1 S) as J1 by (rewrite Es; apply in_or_app; now left). destruct (gd_call _ _ _ (is_good T G L S GL Pm k1 J1)) as (its1 & C1 & _).
  exists (k_t k1), (k_q k1), (k_c k1), (k_r k1), its1. split; [exact C1|]. split; [exact E1|]. split; [exact Pu|]. split.
  - intros Q0. assert (k1 = k2) as -> by (apply Inj; [exact (Permutation_in _ (Permutation_sym Pm) J1)|exact I2|congruence|congruence]). rewrite Es in Nd. apply NoDup_remove_2 in Nd. apply Nd. apply in_or_app. now left.
  - intros Rl Aq. destruct (read_of_it T G Ie W X L S GL Pm k2 y J2 St Ro) as (its & Ca & Hr).
    exists (k_c k1), (k_r k1), its1, (k_c k2), (k_r k2), its, (k_x k1), y. cbn [fst snd]. split; [exact C1|]. split; [exact Rl|].
    split; [exact (write_of_it T G L S GL Pm k1 its1 J1 W1 C1)|]. split; [exact Ca|]. split; [exact St|]. split; [exact Aq|]. split; [exact Hr|].
    left. exists a, w'. split; [exact (carries_rseq G a _ _ Cr)|exact F].
Qed.
(* Hence what happens before every release of [x] into the cell happens before what follows an acquiring call that finds [x]. *)
Theorem C47_visible T G a n x t2 q2 c2 r2 its2 d e : t_ie T = None -> t_wf T -> execution T G -> cells_client G ->
  call_at G t2 q2 c2 r2 its2 -> op_cell c2 = (a, n) -> finds x (c2, r2) -> acquires (eff c2 r2) = true -> rd (t_e T) (g_init G) a n <> x ->
  (forall t q c r its, call_at G t q c r its -> op_cell c = (a, n) -> puts x (c, r) -> releases (weff c) = true /\ before G d t q) -> after G e t2 q2 -> happens_before G d e.
Proof.
  intros Ie W X C C2 E2 F2 Aq Nx H A. destruct (C47_publisher T G a n x t2 q2 c2 r2 its2 Ie W X C C2 E2 F2 Nx) as (t1 & q1 & c1 & r1 & its1 & C1 & E1 & Pu & _ & Sy).
  destruct (H _ _ _ _ _ C1 E1 Pu) as [Rl B]. right. exists t1, q1, t2, q2. split; [exact B|]. split; [|exact A]. apply re_one. exact (Sy Rl Aq).
Qed.
(* One-time initialization: [x1] (done) is put into the cell only by threads that have taken [x0] (to do) out of it before, nobody puts [x0] back.
   Then one thread only puts [x1] there, and whoever acquires it sees all that this thread has done before. *)
Theorem C47_once T G a n x0 x1 t0 i cr0 : t_ie T = None -> t_wf T -> execution T G -> cells_client G ->
  (forall t cr, In cr (on_cell a n (calls (g_thr G t))) -> ~ puts x0 cr) ->
  (forall t cr, In cr (on_cell a n (calls (g_thr G t))) -> puts x1 cr -> exists cr', In cr' (on_cell a n (calls (g_thr G t))) /\ takes x0 cr') ->
  nth_error (on_cell a n (calls (g_thr G t0))) i = Some cr0 -> takes x0 cr0 -> rd (t_e T) (g_init G) a n <> x1 ->
  (forall t cr, In cr (on_cell a n (calls (g_thr G t))) -> puts x1 cr -> t = t0) /\
  forall t2 q2 c2 r2 its2 d e, call_at G t2 q2 c2 r2 its2 -> op_cell c2 = (a, n) -> finds x1 (c2, r2) -> acquires (eff c2 r2) = true ->
    (forall q c r its, call_at G t0 q c r its -> op_cell c = (a, n) -> puts x1 (c, r) -> releases (weff c) = true /\ before G d t0 q) -> after G e t2 q2 ->
    happens_before G d e /\ (solid G d -> solid G e -> forall b, writes_b G d b -> reads_b G e b -> exists w, g_rf G b w e /\ (w = d \/ g_co G b d w)).
Proof.
  intros Ie W X C N0 P1 H0 T0 Nx. assert (forall t cr, In cr (on_cell a n (calls (g_thr G t))) -> puts x1 cr -> t = t0) as U.
  { intros t cr I Pu. destruct (P1 t cr I Pu) as (cr' & I' & T'). destruct (In_nth_error _ _ I') as (j & Hj). exact (proj1 (C44_taken_once T G a n x0 Ie W X C N0 _ _ _ _ _ _ Hj H0 T' T0)). }
  split; [exact U|]. intros t2 q2 c2 r2 its2 d e C2 E2 F2 Aq H A.
  assert (happens_before G d e) as Hb.
  { apply (C47_visible T G a n x1 t2 q2 c2 r2 its2 d e Ie W X C C2 E2 F2 Aq Nx); [|exact A]. intros t q c r its Ca Ec Pu.
    assert (In (c, r) (on_cell a n (calls (g_thr G t)))) as I.
    { apply filter_In. split; [apply in_flat_map; eexists; split; [exact (nth_error_In _ _ Ca)|now left]|]. cbn [fst]. rewrite Ec. cbn [fst snd]. now rewrite !Z.eqb_refl. }
    rewrite (U t (c, r) I Pu) in *. exact (H q c r its Ca Ec Pu). }
  split; [exact Hb|]. intros Sd Se b. exact (C37_write_read T G Ie W X d e b Hb Sd Se).
Qed.
