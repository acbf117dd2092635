(* C44: whatever the orderings, and on every memory model, the calls on one cell have the results of an interleaving. *)
From Verif Require Import Prop_sc All_atomic CellSeq.
From Coq Require Import Permutation Sorted.

(* ---- specification ---- *)
(* A client that uses the library for all writes to its cells, with any orderings: code outside the library does not write the cells (it may read
   them), the cells of different calls are the same or do not overlap, they have the sizes of the integer types, there are finitely many threads. *)
Record cells_client (G : graph) : Prop := {
  cc_code : forall t q its v b t' q' c r its', nth_error (g_thr G t) q = Some (Code its) -> In (IE v) its -> e_w v = true -> covers v b ->
    call_at G t' q' c r its' -> ~ (fst (op_cell c) <= b < fst (op_cell c) + snd (op_cell c));
  cc_cells : forall t q c r its t' q' c' r' its', call_at G t q c r its -> call_at G t' q' c' r' its' -> op_cell c = op_cell c' \/ disjoint (op_cell c) (op_cell c');
  cc_size : forall t q c r its, call_at G t q c r its -> an_integer (snd (op_cell c));
  cc_fin : exists N, forall t, (N <= t)%nat -> g_thr G t = []
}.
(* the calls on the [n] bytes at [a], with their results *)
Definition on_cell (a n : Z) (l : list (op * rval)) : list (op * rval) := filter (fun cr => (fst (op_cell (fst cr)) =? a) && (snd (op_cell (fst cr)) =? n)) l.
(* the call found [x] in its cell and replaced it / the call may write [x] *)
Definition takes (x : Z) (cr : op * rval) : Prop :=
  match cr with
  | (OSwap _ _ _ _, RVal v) => v = x
  | (OCas _ _ _ _ cur _, RCas _ true) | (OCasWeak _ _ _ _ cur _, RCas _ true) => cur = x
  | _ => False
  end.
Definition puts (x : Z) (cr : op * rval) : Prop :=
  match cr with
  | (OStore _ _ _ v, _) | (OSwap _ _ _ v, _) => v = x
  | (OCas _ _ _ _ _ new, RCas _ true) | (OCasWeak _ _ _ _ _ new, RCas _ true) => new = x
  | _ => False
  end.

(* ---- machinery ---- *)
Lemma on_map a n l : map k_cr (filter (onC a n) l) = on_cell a n (map k_cr l).
Proof. unfold on_cell. induction l as [|k l IH]; [reflexivity|]. cbn [filter map]. unfold onC at 1. cbn [k_cr fst]. destruct (_ && _); cbn [map]; now rewrite IH. Qed.
Lemma filter_comm {A} (f g : A -> bool) l : filter f (filter g l) = filter g (filter f l).
Proof. induction l as [|x l IH]; [reflexivity|]. cbn [filter]. destruct (g x) eqn:E, (f x) eqn:F; cbn [filter]; rewrite ?E, ?F, IH; reflexivity. Qed.

(* ---- theorems ---- *)
Theorem C44_interleaving T G a n : t_ie T = None -> t_wf T -> execution T G -> cells_client G ->
  exists mf, interleaved (op_done T) (fun t => on_cell a n (calls (g_thr G t))) (g_init G) mf /\
    forall t q c r its b, call_at G t q c r its -> op_cell c = (a, n) -> a <= b < a + n ->
      ((forall w, ~ writes_b G w b) -> mf b = g_init G b) /\
      (forall w v, ev_at G w v -> e_w v = true -> covers v b -> (forall w', ~ g_co G b w w') -> mf b = e_b v b).
Proof.
  intros Ie W X [HCode HCells HSz (N & HN)]. pose proof (smp_ie T Ie) as Sm. destruct (all_list T G X Sm W N) as (L & HL & HT).
  assert (Forall (good T G) L) as GL.
  { apply Forall_forall. intros k I. rewrite Forall_forall in HL. destruct (HT (k_t k) (HL k I)) as (F & _). rewrite Forall_forall in F. apply F. apply filter_In. split; [exact I|]. apply Nat.eqb_refl. }
  assert (forall k k', In k L -> In k' L -> k_t k = k_t k' -> k_q k = k_q k' -> k = k') as Inj.
  { intros k k' I I' Et Eq. rewrite Forall_forall in HL. destruct (HT (k_t k) (HL k I)) as (_ & _ & _ & So & _).
    apply (ss_inj k_q _ k k' So); auto; apply filter_In; split; auto; unfold thr; [apply Nat.eqb_refl|rewrite Et; apply Nat.eqb_refl]. }
  assert (forall t q c r its, call_at G t q c r its -> exists k, In k L /\ k_t k = t /\ k_q k = q) as All.
  { intros t q c r its C. assert (t < N)%nat as Lt. { destruct (Nat.lt_ge_cases t N) as [Lt|Ge]; [exact Lt|]. unfold call_at in C. rewrite (HN t Ge) in C. destruct q; discriminate C. }
    destruct (HT t Lt) as (_ & Ft & _ & _ & K). destruct (K q c r its C) as (k & I & E). exists k. apply filter_In in I. destruct I as [I J]. split; [exact I|]. split; [now apply Nat.eqb_eq|exact E]. }
  assert (forall k k', In k L -> In k' L -> op_cell (k_c k) = op_cell (k_c k') \/ disjoint (op_cell (k_c k)) (op_cell (k_c k'))) as Hc.
  { intros k k' I I'. rewrite Forall_forall in GL. destruct (gd_call _ _ _ (GL k I)) as (its & C & _), (gd_call _ _ _ (GL k' I')) as (its' & C' & _). exact (HCells _ _ _ _ _ _ _ _ _ _ C C'). }
  assert (forall k, In k L -> an_integer (snd (op_cell (k_c k)))) as Hs.
  { intros k I. rewrite Forall_forall in GL. destruct (gd_call _ _ _ (GL k I)) as (its & C & _). exact (HSz _ _ _ _ _ C). }
  destruct (topo (first G) (length L) L eq_refl) as (S & Pm & So).
  { intros x y Ix Iy. exact (first_dec T G X Sm L GL Inj x y Ix Iy). }
  { exact (first_acyclic T G X Sm L GL). }
  assert (NoDup L) as Nd.
  { assert (forall l, Forall (fun k => In k L) l -> (forall t, NoDup (map k_q (filter (thr t) l))) -> NoDup l) as Q.
    { induction l as [|k l IH]; intros F H; [constructor|]. inversion F as [|? ? F1 F2]; subst. constructor.
      - intros I. specialize (H (k_t k)). cbn [filter] in H. unfold thr at 1 in H. rewrite Nat.eqb_refl in H. cbn [map] in H. apply NoDup_cons_iff in H. destruct H as [H _]. apply H.
        apply in_map. apply filter_In. split; [exact I|apply Nat.eqb_refl].
      - apply IH; auto. intros t. specialize (H t). cbn [filter] in H. destruct (thr t k); [cbn [map] in H; now apply NoDup_cons_iff in H|exact H]. }
    apply Q; [apply Forall_forall; auto|]. intros t. destruct (Nat.lt_ge_cases t N) as [Lt|Ge].
    - apply ss_nodup. apply (HT t Lt).
    - rewrite filter_none; [constructor|]. eapply Forall_impl; [|exact HL]. intros k Hk. unfold thr. apply Nat.eqb_neq. cbv beta in Hk. lia. }
  pose proof (Permutation_NoDup Pm Nd) as NdS.
  exists (mem_after G (filter (onC a n) S)). split.
  - pose proof (replay T G X Sm W L GL Inj All HCode Hc Hs S Pm So a n NdS S [] eq_refl) as H. refine (il_ext _ _ _ _ _ _ H). intros t.
    destruct (Nat.lt_ge_cases t N) as [Lt|Ge].
    + destruct (HT t Lt) as (_ & Ft & <- & Sq & _). rewrite <- on_map. f_equal. rewrite (filter_comm (onC a n)). symmetry. apply (sorted_unique k_q).
      * apply perm_filter, perm_filter. exact Pm.
      * rewrite filter_comm. exact (ss_filter _ (onC a n) _ Sq).
      * apply ss_strict.
        -- pose proof (ss_filter _ (thr t) _ (ss_filter _ (onC a n) _ So)) as Z. clear - Z.
           assert (Forall (fun k => k_t k = t /\ op_cell (k_c k) = (a, n)) (filter (thr t) (filter (onC a n) S))) as F0.
           { apply Forall_forall; intros k I; apply filter_In in I; destruct I as [I J]; apply filter_In in I; destruct I as [_ I]. split; [now apply Nat.eqb_eq|now apply onC_spec]. }
           induction Z as [|x l Z IH F]; [constructor|]. inversion F0 as [|? ? [F1 F3] F2]; subst. constructor; auto. rewrite Forall_forall in *. intros y Y.
           destruct (Nat.le_gt_cases (k_q x) (k_q y)) as [Q|Q]; [exact Q|]. exfalso. apply (F y Y). destruct (F2 y Y) as [F4 F5]. split; [congruence|]. left. split; [congruence|exact Q].
        -- apply Permutation_NoDup with (map k_q (filter (thr t) (filter (onC a n) L))); [apply Permutation_map, perm_filter, perm_filter; exact Pm|].
           rewrite filter_comm. apply ss_nodup. exact (ss_filter _ (onC a n) _ Sq).
    + rewrite (HN t Ge). rewrite filter_none; [reflexivity|]. apply Forall_forall. intros k I. apply filter_In in I. destruct I as [I _]. apply (Permutation_in _ (Permutation_sym Pm)) in I. rewrite Forall_forall in HL. pose proof (HL k I) as Q. unfold thr. apply Nat.eqb_neq. cbv beta in Q. lia.
  - intros t q c r its b C Ec Hb. destruct (All t q c r its C) as (k & I & Et & Eq). rewrite Forall_forall in GL. destruct (gd_call _ _ _ (GL k I)) as (its' & C' & _). unfold call_at in *.
    rewrite Et, Eq, C in C'. injection C' as Ek _ _. rewrite <- Forall_forall in GL. rewrite Ek in Ec.
    assert (incl S L) as Inc by (intros z Z; exact (Permutation_in _ (Permutation_sym Pm) Z)).
    assert (in_cell (k_c k) b) as Ib by (unfold in_cell; rewrite Ec; exact Hb).
    rewrite (mem_onC T G Sm L Hc a n S Inc k b I (proj2 (onC_spec a n k) Ec) Ib).
    exact (final_value T G X Sm W L GL Inj All HCode Hc Hs S Pm So b k I Ib).
Qed.
(* with the specification of every call, if there is no compare_exchange of 4 bytes on the 64-bit targets of C04_riscv64_refuted,
   C04_loongarch64_refuted, C04_mips64_refuted *)
Lemma on_in a n t G c r : In (c, r) (on_cell a n (calls (g_thr G t))) -> op_cell c = (a, n) /\ exists q its, call_at G t q c r its.
Proof.
  intros J. apply filter_In in J. destruct J as [J E]. cbn [fst] in E. apply andb_true_iff in E. rewrite !Z.eqb_eq in E. destruct (in_calls _ _ _ J) as (q & its & Q).
  split; [destruct (op_cell c); cbn [fst snd] in E; destruct E as [-> ->]; reflexivity|eauto].
Qed.
Theorem C44_sequential T G a n : t_ie T = None -> t_wf T -> execution T G -> cells_client G ->
  (forall t s f x y r, In (OCas n s f a x y, r) (calls (g_thr G t)) -> cas_upper_bits T n = false) ->
  exists mf, interleaved (op_spec (t_e T)) (fun t => on_cell a n (calls (g_thr G t))) (g_init G) mf.
Proof.
  intros Ie W X C H. destruct (C44_interleaving T G a n Ie W X C) as (mf & I & _). exists mf. apply (il_weaken _ _ _ _ _ I). intros t c r m m' J D.
  destruct (on_in _ _ _ _ _ _ J) as [E _]. unfold op_done in D. destruct c, r; auto. cbn [op_cell] in E. injection E as -> ->. apply filter_In in J. rewrite (H _ _ _ _ _ _ (proj1 J)) in D. exact D.
Qed.

(* the value of the cell around a call that does not put [x] there *)
Lemma taken_step T c r m m' a n x : 0 < n -> op_cell c = (a, n) -> op_done T c m m' r ->
  match c with OStore _ _ _ v | OSwap _ _ _ v => val n v | OCas _ _ _ _ o v | OCasWeak _ _ _ _ o v => val n o /\ val n v | OLoad _ _ _ => True end ->
  ~ puts x (c, r) -> (rd (t_e T) m' a n = x -> rd (t_e T) m a n = x) /\ (takes x (c, r) -> rd (t_e T) m a n = x /\ rd (t_e T) m' a n <> x).
Proof.
  intros Pn E D V Np. rewrite op_done_as in D. assert (forall v, val n v -> v <> x -> meq m' (wr (t_e T) m a n v) -> rd (t_e T) m' a n <> x) as Wr.
  { intros v Vv Nv Q. rewrite (rd_meq _ _ _ _ _ Q), rd_wr_any by lia. now rewrite (low_id _ _ Vv). }
  assert (forall m1 m2, meq m1 m2 -> rd (t_e T) m1 a n = rd (t_e T) m2 a n) as Kp by (intros; now apply rd_meq).
  assert (forall o w v ok, val n o /\ val n w -> (ok = true -> w <> x) -> casw_spec (t_e T) a n o w m m' (v, ok) ->
    (rd (t_e T) m' a n = x -> rd (t_e T) m a n = x) /\ ((if ok then o = x else False) -> rd (t_e T) m a n = x /\ rd (t_e T) m' a n <> x)) as Cs.
  { intros o w v ok [_ Vw] Nw [Q1 Q2]. cbn [fst snd] in *. destruct ok; [|rewrite (Kp _ _ Q2); tauto]. destruct Q2 as [Q2 Q3]. pose proof (Wr _ Vw (Nw eq_refl) Q3). split; [intros Z; contradiction|]. intros <-. auto. }
  destruct c; cbn [as_done] in D; try (match type of D with context [if ?b then _ else _] => destruct b end); destruct r; cbn [op_cell op_spec] in *; try contradiction D; injection E as -> ->; cbn [puts takes] in *.
  - destruct D as [_ Q]. rewrite (Kp _ _ Q). tauto.
  - pose proof (Wr _ V Np D). tauto.
  - destruct D as [-> Q]. pose proof (Wr _ V Np Q). tauto.
  - eapply Cs; [exact V| |exact D]. intros ->. exact Np.
  - eapply Cs; [exact V| |exact (cas_casw _ _ _ _ _ _ _ _ D)]. intros ->. exact Np.
  - eapply Cs; [exact V| |exact D]. intros ->. exact Np.
Qed.
Definition good_vals (n : Z) (c : op) : Prop :=
  match c with OStore _ _ _ v | OSwap _ _ _ v => val n v | OCas _ _ _ _ o v | OCasWeak _ _ _ _ o v => val n o /\ val n v | OLoad _ _ _ => True end.
Lemma none_taken T a n x P m mf : 0 < n -> interleaved (op_done T) P m mf ->
  (forall t c r, In (c, r) (P t) -> op_cell c = (a, n) /\ good_vals n c /\ ~ puts x (c, r)) -> rd (t_e T) m a n <> x -> forall t c r, In (c, r) (P t) -> ~ takes x (c, r).
Proof.
  intros Pn. induction 1 as [P m H|P Pq t0 c0 r0 l m m' mf H1 H2 H3 H4 H5 IH]; intros K Nx t c r I; [rewrite H in I; destruct I|].
  destruct (K t0 c0 r0 ltac:(rewrite H1; now left)) as (E & V & Np). destruct (taken_step T c0 r0 m m' a n x Pn E H4 V Np) as [S1 S2].
  assert (forall t', incl (Pq t') (P t')) as Inc.
  { intros t'. destruct (Nat.eq_dec t' t0) as [->|Ne]; [rewrite H1, H2; intros z Z; now right|rewrite (H3 t' Ne); apply incl_refl]. }
  specialize (IH (fun t' c' r' J => K t' c' r' (Inc t' _ J)) (fun Q => Nx (S1 Q))). destruct (Nat.eq_dec t t0) as [->|Ne]; [|apply IH with t; now rewrite (H3 t Ne)].
  rewrite H1 in I. destruct I as [I|I]; [injection I as <- <-; intros Q; exact (Nx (proj1 (S2 Q)))|apply IH with t0; now rewrite H2].
Qed.
Lemma one_taken T a n x P m mf : 0 < n -> interleaved (op_done T) P m mf ->
  (forall t c r, In (c, r) (P t) -> op_cell c = (a, n) /\ good_vals n c /\ ~ puts x (c, r)) ->
  forall t i cr t' i' cr', nth_error (P t) i = Some cr -> nth_error (P t') i' = Some cr' -> takes x cr -> takes x cr' -> t = t' /\ i = i'.
Proof.
  intros Pn. induction 1 as [P m H|P Pq t0 c0 r0 l m m' mf H1 H2 H3 H4 H5 IH]; intros K t i cr t' i' cr' A A' X X'; [rewrite H in A; destruct i; discriminate A|].
  destruct (K t0 c0 r0 ltac:(rewrite H1; now left)) as (E & V & Np). destruct (taken_step T c0 r0 m m' a n x Pn E H4 V Np) as [S1 S2].
  assert (forall t', incl (Pq t') (P t')) as Inc.
  { intros t1. destruct (Nat.eq_dec t1 t0) as [->|Ne]; [rewrite H1, H2; intros z Z; now right|rewrite (H3 t1 Ne); apply incl_refl]. }
  assert (forall t c r, In (c, r) (Pq t) -> op_cell c = (a, n) /\ good_vals n c /\ ~ puts x (c, r)) as K' by (intros t1 c1 r1 J; exact (K t1 c1 r1 (Inc t1 _ J))).
  assert (forall t i cr, nth_error (P t) i = Some cr -> (t = t0 /\ i = O /\ cr = (c0, r0)) \/ exists j, nth_error (Pq t) j = Some cr /\ (if Nat.eqb t t0 then i = S j else i = j)) as Sh.
  { intros t1 i1 cr1 B. destruct (Nat.eqb_spec t1 t0) as [->|Ne]; [|right; exists i1; rewrite (H3 t1 Ne); auto]. rewrite H1 in B. destruct i1 as [|j]; [left; injection B as <-; auto|right; exists j; rewrite H2; auto]. }
  assert (takes x (c0, r0) -> forall t j cr, nth_error (Pq t) j = Some cr -> ~ takes x cr) as No.
  { intros Q t1 j [c1 r1] B. exact (none_taken T a n x Pq m' mf Pn H5 K' (proj2 (S2 Q)) t1 c1 r1 (nth_error_In _ _ B)). }
  destruct (Sh _ _ _ A) as [(-> & -> & ->)|(j & B & Ei)], (Sh _ _ _ A') as [(-> & -> & ->)|(j' & B' & Ei')].
  - auto.
  - exfalso. exact (No X _ _ _ B' X').
  - exfalso. exact (No X' _ _ _ B X).
  - destruct (IH K' _ _ _ _ _ _ B B' X X') as [<- <-]. split; [reflexivity|]. destruct (Nat.eqb t t0); congruence.
Qed.
(* A value that no call puts into a cell is taken from it at most once, by swap or by a successful compare_exchange, even if all are Relaxed.
   The thread who takes it is the only one. *)
Theorem C44_taken_once T G a n x : t_ie T = None -> t_wf T -> execution T G -> cells_client G ->
  (forall t cr, In cr (on_cell a n (calls (g_thr G t))) -> ~ puts x cr) ->
  forall t i cr t' i' cr', nth_error (on_cell a n (calls (g_thr G t))) i = Some cr -> nth_error (on_cell a n (calls (g_thr G t'))) i' = Some cr' ->
    takes x cr -> takes x cr' -> t = t' /\ i = i'.
Proof.
  intros Ie W X C Np t i [c r] t' i' cr' A A' Q Q'. destruct (C44_interleaving T G a n Ie W X C) as (mf & I & _).
  assert (0 < n) as Pn. { destruct (on_in _ _ _ _ _ _ (nth_error_In _ _ A)) as [E (q & its & Ca)]. pose proof (cc_size _ C _ _ _ _ _ Ca) as S. rewrite E in S. cbn in S. unfold an_integer in S. lia. }
  apply (one_taken T a n x _ _ _ Pn I) with (cr := (c, r)) (cr' := cr'); auto. intros t1 c1 r1 J. destruct (on_in _ _ _ _ _ _ J) as [E (q & its & Ca)].
  split; [exact E|]. split; [|exact (Np t1 (c1, r1) J)]. pose proof (ex_calls _ _ X _ _ _ _ _ Ca) as Ci. destruct Ci as [f ? ? ? ? ? Ar _ _ _ _ _ _ _ _].
  destruct c1; cbn [op_cell op_args good_vals] in *; try injection E as -> ->; tauto.
Qed.
(* and one that no call puts there, and that was not there in the beginning, is never taken *)
Theorem C44_never_taken T G a n x : t_ie T = None -> t_wf T -> execution T G -> cells_client G ->
  (forall t cr, In cr (on_cell a n (calls (g_thr G t))) -> ~ puts x cr) -> rd (t_e T) (g_init G) a n <> x ->
  forall t cr, In cr (on_cell a n (calls (g_thr G t))) -> ~ takes x cr.
Proof.
  intros Ie W X C Np Nx t [c r] J. destruct (C44_interleaving T G a n Ie W X C) as (mf & I & _).
  assert (0 < n) as Pn. { destruct (on_in _ _ _ _ _ _ J) as [E (q & its & Ca)]. pose proof (cc_size _ C _ _ _ _ _ Ca) as S. rewrite E in S. cbn in S. unfold an_integer in S. lia. }
  apply (none_taken T a n x _ _ _ Pn I) with (t := t); auto. intros t1 c1 r1 J1. destruct (on_in _ _ _ _ _ _ J1) as [E (q & its & Ca)].
  split; [exact E|]. split; [|exact (Np t1 (c1, r1) J1)]. pose proof (ex_calls _ _ X _ _ _ _ _ Ca) as Ci. destruct Ci as [f ? ? ? ? ? Ar _ _ _ _ _ _ _ _].
  destruct c1; cbn [op_cell op_args good_vals] in *; try injection E as -> ->; tauto.
Qed.
