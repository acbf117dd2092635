(* C26: programs whose calls are all SeqCst have only the results of interleavings. *)
From Verif Require Import Replay All_atomic.
From Coq Require Import Permutation Sorted.

Lemma il_ext spec P P' m mf : (forall t, P t = P' t) -> interleaved spec P m mf -> interleaved spec P' m mf.
Proof.
  intros E H. destruct H as [P m H|P Pn t c r l m m' mf H1 H2 H3 H4 H5].
  - apply il_done. intros t. now rewrite <- E.
  - apply (il_step spec P' Pn t c r l m m' mf); auto; [now rewrite <- E|]. intros t' Ne. rewrite <- E. auto.
Qed.
Lemma il_weaken (spec spec' : op -> mem -> mem -> rval -> Prop) P m mf : interleaved spec P m mf ->
  (forall t c r m m', In (c, r) (P t) -> spec c m m' r -> spec' c m m' r) -> interleaved spec' P m mf.
Proof.
  induction 1 as [P m H|P Pn t c r l m m' mf H1 H2 H3 H4 H5 IH]; intros K; [now apply il_done|].
  apply (il_step spec' P Pn t c r l m m' mf); auto; [apply (K t); [rewrite H1; now left|exact H4]|]. apply IH. intros t' c' r' m1 m2 I. apply (K t').
  destruct (Nat.eq_dec t' t) as [->|Ne]; [rewrite H1; right; now rewrite <- H2|now rewrite <- (H3 t' Ne)].
Qed.
Lemma smp_ie T : t_ie T = None -> smp T = true.
Proof. destruct T; auto; discriminate. Qed.
Lemma in_calls c r l : In (c, r) (calls l) -> exists q its, nth_error l q = Some (Call c r its).
Proof.
  intros H. unfold calls in H. apply in_flat_map in H. destruct H as (s & I & J). apply In_nth_error in I. destruct I as [q I]. destruct s as [c' r' its|its]; [|destruct J].
  destruct J as [J|[]]. injection J as -> ->. exists q, its. exact I.
Qed.

(* Every execution of such a client, on every multi-core target, has the results of an interleaving of the calls; the memory of the cells at
   the end is what the interleaving leaves there.  [op_done] is the sequential specification of the call, except that the compare_exchange
   calls of C04_riscv64_refuted, C04_loongarch64_refuted, C04_mips64_refuted may fail spuriously. *)
Theorem C26_interleaving T G : t_ie T = None -> t_wf T -> execution T G -> sc_client G ->
  exists mf, interleaved (op_done T) (fun t => calls (g_thr G t)) (g_init G) mf /\
    forall t q c r its b, call_at G t q c r its -> fst (op_cell c) <= b < fst (op_cell c) + snd (op_cell c) ->
      ((forall w, ~ writes_b G w b) -> mf b = g_init G b) /\
      (forall w v, ev_at G w v -> e_w v = true -> covers v b -> (forall w', ~ g_co G b w w') -> mf b = e_b v b).
Proof.
  intros Ie W X [HSC HCode HCells (N & HN)]. pose proof (smp_ie T Ie) as Sm. destruct (all_list T G X Sm W HSC N) as (L & HL & HT).
  assert (Forall (good T G) L) as GL.
  { apply Forall_forall. intros n I. rewrite Forall_forall in HL. destruct (HT (k_t n) (HL n I)) as (F & _). rewrite Forall_forall in F. apply F. apply filter_In. split; [exact I|]. apply Nat.eqb_refl. }
  assert (forall n n', In n L -> In n' L -> k_t n = k_t n' -> k_q n = k_q n' -> n = n') as Inj.
  { intros n n' I I' Et Eq. rewrite Forall_forall in HL. destruct (HT (k_t n) (HL n I)) as (_ & _ & _ & So & _).
    apply (ss_inj k_q _ n n' So); auto; apply filter_In; split; auto; unfold thr; [apply Nat.eqb_refl|rewrite Et; apply Nat.eqb_refl]. }
  assert (forall t q c r its, call_at G t q c r its -> exists n, In n L /\ k_t n = t /\ k_q n = q) as All.
  { intros t q c r its C. assert (t < N)%nat as Lt. { destruct (Nat.lt_ge_cases t N) as [Lt|Ge]; [exact Lt|]. unfold call_at in C. rewrite (HN t Ge) in C. destruct q; discriminate C. }
    destruct (HT t Lt) as (_ & Ft & _ & _ & K). destruct (K q c r its C) as (n & I & E). exists n. apply filter_In in I. destruct I as [I J]. split; [exact I|]. split; [now apply Nat.eqb_eq|exact E]. }
  assert (forall n n', In n L -> In n' L -> op_cell (k_c n) = op_cell (k_c n') \/ disjoint (op_cell (k_c n)) (op_cell (k_c n'))) as Hc.
  { intros n n' I I'. rewrite Forall_forall in GL. destruct (gd_call _ _ _ (GL n I)) as (its & C & _), (gd_call _ _ _ (GL n' I')) as (its' & C' & _). exact (HCells _ _ _ _ _ _ _ _ _ _ C C'). }
  destruct (topo (first G) (length L) L eq_refl) as (S & Pm & So).
  { intros x y Ix Iy. exact (first_dec T G X Sm W L GL Inj All HCode x y Ix Iy). }
  { exact (first_acyclic T G X Sm W L GL All HCode). }
  assert (NoDup L) as Nd.
  { assert (forall l, Forall (fun n => In n L) l -> (forall t, NoDup (map k_q (filter (thr t) l))) -> NoDup l) as Q.
    { induction l as [|n l IH]; intros F H; [constructor|]. inversion F as [|? ? F1 F2]; subst. constructor.
      - intros I. specialize (H (k_t n)). cbn [filter] in H. unfold thr at 1 in H. rewrite Nat.eqb_refl in H. cbn [map] in H. apply NoDup_cons_iff in H. destruct H as [H _]. apply H.
        apply in_map. apply filter_In. split; [exact I|apply Nat.eqb_refl].
      - apply IH; auto. intros t. specialize (H t). cbn [filter] in H. destruct (thr t n); [cbn [map] in H; now apply NoDup_cons_iff in H|exact H]. }
    apply Q; [apply Forall_forall; auto|]. intros t. destruct (Nat.lt_ge_cases t N) as [Lt|Ge].
    - apply ss_nodup. apply (HT t Lt).
    - rewrite filter_none; [constructor|]. eapply Forall_impl; [|exact HL]. intros n Hn. unfold thr. apply Nat.eqb_neq. cbv beta in Hn. lia. }
  pose proof (Permutation_NoDup Pm Nd) as NdS.
  exists (mem_after G S). split.
  - pose proof (replay T G X Sm W L GL Inj All HCode Hc S Pm So NdS S [] eq_refl) as H. refine (il_ext _ _ _ _ _ _ H). intros t.
    destruct (Nat.lt_ge_cases t N) as [Lt|Ge].
    + destruct (HT t Lt) as (_ & Ft & <- & Sq & _). f_equal. symmetry. apply (sorted_unique k_q); auto using perm_filter.
      apply ss_strict.
      * pose proof (ss_filter _ (thr t) _ So) as Z. clear - Z. assert (Forall (fun n => k_t n = t) (filter (thr t) S)) as Ft by (apply Forall_forall; intros n I; apply filter_In in I; destruct I as [_ I]; now apply Nat.eqb_eq).
        induction Z as [|a l Z IH F]; [constructor|]. inversion Ft as [|? ? F1 F2]; subst. constructor; auto. rewrite Forall_forall in *. intros y Y.
        destruct (Nat.le_gt_cases (k_q a) (k_q y)) as [Q|Q]; [exact Q|]. exfalso. apply (F y Y). left. split; [exact (F2 y Y)|exact Q].
      * apply Permutation_NoDup with (map k_q (filter (thr t) L)); [apply Permutation_map; now apply perm_filter|now apply ss_nodup].
    + rewrite (HN t Ge). rewrite filter_none; [reflexivity|]. apply Forall_forall. intros n I. apply (Permutation_in _ (Permutation_sym Pm)) in I. rewrite Forall_forall in HL. pose proof (HL n I) as Q. unfold thr. apply Nat.eqb_neq. cbv beta in Q. lia.
  - intros t q c r its b C Hb. destruct (All t q c r its C) as (n & I & Et & Eq). rewrite Forall_forall in GL. destruct (gd_call _ _ _ (GL n I)) as (its' & C' & _). unfold call_at in *.
    rewrite Et, Eq, C in C'. injection C' as Ec _ _. rewrite <- Forall_forall in GL. apply (final_value T G X Sm W L GL Inj All HCode Hc S Pm So b n I). unfold in_cell. rewrite <- Ec. exact Hb.
Qed.
(* with the specification of every call, if there is no compare_exchange of 4 bytes on the 64-bit targets named there *)
Theorem C26_sequential T G : t_ie T = None -> t_wf T -> execution T G -> sc_client G ->
  (forall t q n s f a x y r its, call_at G t q (OCas n s f a x y) r its -> cas_upper_bits T n = false) ->
  exists mf, interleaved (op_spec (t_e T)) (fun t => calls (g_thr G t)) (g_init G) mf.
Proof.
  intros Ie W X C H. destruct (C26_interleaving T G Ie W X C) as (mf & I & _). exists mf. apply (il_weaken _ _ _ _ _ I). intros t c r m m' J D.
  destruct (in_calls _ _ _ J) as (q & its & Q). unfold op_done in D. destruct c, r; auto. rewrite (H _ _ _ _ _ _ _ _ _ _ Q) in D. exact D.
Qed.
(* a cell that nobody writes any more *)
Definition spares (a n : Z) (c : op) : Prop := match c with OLoad _ _ _ => True | _ => disjoint (a, n) (op_cell c) end.
Lemma spared e a n c m m' r : spares a n c -> op_spec e c m m' r -> rd e m' a n = rd e m a n.
Proof.
  intros S D. apply rd_ext. intros i Hi. destruct c; cbn [spares] in S.
  - destruct r; try contradiction D. destruct D as [_ D]. symmetry. apply D.
  - destruct r; try contradiction D. apply (store_only _ _ _ _ _ _ tt D). unfold disjoint in S. cbn [op_cell fst snd] in S. lia.
  - destruct r; try contradiction D. apply (swap_only _ _ _ _ _ _ _ D). unfold disjoint in S. cbn [op_cell fst snd] in S. lia.
  - destruct r; try contradiction D. apply (cas_only _ _ _ _ _ _ _ _ D). unfold disjoint in S. cbn [op_cell fst snd] in S. lia.
  - destruct r; try contradiction D. apply (casw_only _ _ _ _ _ _ _ _ D). unfold disjoint in S. cbn [op_cell fst snd] in S. lia.
Qed.
Lemma il_keep e P m mf a n : interleaved (op_spec e) P m mf -> (forall t c r, In (c, r) (P t) -> spares a n c) ->
  forall t o r, In (OLoad n o a, r) (P t) -> r = RVal (rd e m a n).
Proof.
  induction 1 as [P m H|P Pn t c r l m m' mf H1 H2 H3 H4 H5 IH]; intros K t0 o r0 I; [rewrite H in I; destruct I|].
  assert (forall t', incl (Pn t') (P t')) as Inc.
  { intros t'. destruct (Nat.eq_dec t' t) as [->|Ne]; [rewrite H1, H2; intros z Z; now right|rewrite (H3 t' Ne); apply incl_refl]. }
  assert (rd e m' a n = rd e m a n) as E by (apply (spared e a n c m m' r); [apply (K t c r); rewrite H1; now left|exact H4]).
  assert (forall t' o r, In (OLoad n o a, r) (Pn t') -> r = RVal (rd e m' a n)) as IH' by (apply IH; intros t' c' r' J; apply (K t' c' r'), Inc, J).
  rewrite E in IH'. destruct (Nat.eq_dec t0 t) as [->|Ne]; [|apply (IH' t0 o); now rewrite (H3 t0 Ne)].
  rewrite H1 in I. destruct I as [I|I]; [|apply (IH' t o); now rewrite H2]. injection I as -> ->. cbn in H4. destruct r0; try contradiction H4. destruct H4 as [-> _]. reflexivity.
Qed.
(* Store buffering, in terms of the API alone: thread 0 stores [va] to A and then loads B, thread 1 stores [vb] to B and then loads A, all
   SeqCst.  Whatever else the threads do outside the library, one of the two loads returns the value the other thread stored. *)
Theorem C26_store_buffering_results T G n a b va vb x y : t_ie T = None -> t_wf T -> execution T G -> sc_client G ->
  disjoint (a, n) (b, n) -> 0 < n -> val n va -> val n vb ->
  calls (g_thr G 0) = [(OStore n SeqCst a va, RUnit); (OLoad n SeqCst b, RVal x)] ->
  calls (g_thr G 1) = [(OStore n SeqCst b vb, RUnit); (OLoad n SeqCst a, RVal y)] ->
  (forall t, (2 <= t)%nat -> calls (g_thr G t) = []) -> x = vb \/ y = va.
Proof.
  intros Ie W X C D Pn Va Vb E0 E1 E2. destruct (C26_sequential T G Ie W X C) as (mf & I).
  { intros t q n' s f a' x' y' r its Q. exfalso. assert (In (OCas n' s f a' x' y', r) (calls (g_thr G t))) as J. { unfold calls. apply in_flat_map. exists (Call (OCas n' s f a' x' y') r its). split; [exact (nth_error_In _ _ Q)|now left]. }
    destruct t as [|[|t]]; [rewrite E0 in J|rewrite E1 in J|rewrite (E2 (S (S t)) ltac:(lia)) in J; destruct J]; destruct J as [J|[J|[]]]; discriminate J. }
  assert (forall P m, interleaved (op_spec (t_e T)) P m mf -> P 0%nat = calls (g_thr G 0) -> P 1%nat = calls (g_thr G 1) -> (forall t, (2 <= t)%nat -> P t = calls (g_thr G t)) -> x = vb \/ y = va) as K.
  { intros P m I'. destruct I' as [P m H|P Pq t c r l m m' mf H1 H2 H3 H4 H5]; intros Q0 Q1 Q2; [rewrite H, E0 in Q0; discriminate Q0|].
    destruct t as [|[|t]]; [| |rewrite (Q2 (S (S t)) ltac:(lia)), (E2 (S (S t)) ltac:(lia)) in H1; discriminate H1].
    - right. rewrite Q0, E0 in H1. injection H1 as <- <- <-. cbn in H4. assert (rd (t_e T) m' a n = va) as Rd. { rewrite (rd_meq _ _ _ _ _ H4). rewrite rd_wr_any by lia. now apply low_id. }
      assert (RVal y = RVal (rd (t_e T) m' a n)) as Z.
      { apply (il_keep (t_e T) Pq m' mf a n H5) with (t := 1%nat) (o := SeqCst).
        - intros t c r J. destruct t as [|[|t]]; [rewrite H2 in J; destruct J as [J|[]]; injection J as <- <-; exact Logic.I| |rewrite (H3 (S (S t))), (Q2 (S (S t)) ltac:(lia)), (E2 (S (S t)) ltac:(lia)) in J by congruence; destruct J].
          rewrite (H3 1%nat), Q1, E1 in J by congruence. destruct J as [J|[J|[]]]; injection J as <- <-; [exact D|exact Logic.I].
        - rewrite (H3 1%nat), Q1, E1 by congruence. right. now left. }
      injection Z as ->. exact Rd.
    - left. rewrite Q1, E1 in H1. injection H1 as <- <- <-. cbn in H4. assert (rd (t_e T) m' b n = vb) as Rd. { rewrite (rd_meq _ _ _ _ _ H4). rewrite rd_wr_any by lia. now apply low_id. }
      assert (RVal x = RVal (rd (t_e T) m' b n)) as Z.
      { apply (il_keep (t_e T) Pq m' mf b n H5) with (t := 0%nat) (o := SeqCst).
        - intros t c r J. destruct t as [|[|t]]; [|rewrite H2 in J; destruct J as [J|[]]; injection J as <- <-; exact Logic.I|rewrite (H3 (S (S t))), (Q2 (S (S t)) ltac:(lia)), (E2 (S (S t)) ltac:(lia)) in J by congruence; destruct J].
          rewrite (H3 0%nat), Q0, E0 in J by congruence. destruct J as [J|[J|[]]]; injection J as <- <-; [unfold spares, disjoint in *; cbn [op_cell fst snd] in *; lia|exact Logic.I].
        - rewrite (H3 0%nat), Q0, E0 by congruence. right. now left. }
      injection Z as ->. exact Rd. }
  exact (K _ _ I eq_refl eq_refl (fun _ _ => eq_refl)).
Qed.
