From Verif Require Import Sym Arch_arm_linux Sub32 Wide P_arm.

Ltac unfl := unfold kuser_cmpxchg, kuser_cmpxchg64, bcc, lsl, lsr, mvn, cmpz, bne_z, beq_z, orrs.
Ltac ks HE :=
  match goal with |- context [if ?b && (?x =? ?y) then _ else _] =>
    let OK := fresh "OK" in destruct (b && (x =? y)) eqn:OK;
    [apply andb_true_iff in OK; destruct OK as [_ HE]; apply Z.eqb_eq in HE | clear OK]; cbnx end.

Lemma al_load_fn_atomic e n a t : 0 < n -> atomic_fx e (al_load_fn n a t) (load_spec e a n).
Proof.
  intros Hn. unfold al_load_fn. start f r.
  stp. rewrite Hin, Z.add_0_r. lin_at (rd e (o_mem o) a n); [apply load_spec_refl|].
  stq. silq. done_q. rewrite rd_low by (auto; lia). reflexivity.
Qed.
Lemma al_store_fn_atomic e n a v t : 0 < n -> atomic_fx e (al_store_fn n a v t) (store_spec e a n v).
Proof.
  intros Hn. unfold al_store_fn. destruct t as [re fe]. start f r. destruct Hin as [Ha Hv].
  stp; sil. stp. rewrite Ha, Z.add_0_r. lin_at tt; [eapply wr_opnd; eauto; lia|]. stq. silq. done_q. reflexivity.
Qed.
Lemma al_swap_fn_atomic e a v : atomic_fx e (al_swap_fn a v) (swap_spec e a 4 v).
Proof.
  unfold al_swap_fn. unfl.
  loop_inv 0%nat (fun f : regs => f Dst = a /\ opnd 32 32 v (f AR1)) Loop.
  { destruct Hi as [Fd Fv]. do 3 (stp; sil). stp. rewrite Fd, Z.add_0_r, low32_rd by auto. ks HE.
    - lin_at (rd e (o_mem o2) a 4). { split; [reflexivity|]. eapply (wr_opnd e _ a 4); eauto; lia. }
      stq; silq. done_q. rewrite <- HE. rewrite low32_rd by auto. reflexivity.
    - sil. stp; sil. apply weaken. apply IH; cbnx; [lts|auto]. }
  start f r. apply Loop. exact Hin.
Qed.
Lemma wr_back e m a n : wf_mem m -> 0 <= n -> meq (wr e m a n (rd e m a n)) m.
Proof. intros. apply wr_rd_same; auto. apply rd_low; auto. Qed.
Lemma al_cas_fn_atomic e a old new : 0 <= old < 2 ^ 32 -> atomic_fx e (al_cas_fn a old new) (cas_spec e a 4 old new).
Proof.
  intros Hold. unfold al_cas_fn. unfl.
  loop_inv 0%nat (fun f : regs => f Dst = a /\ opnd 32 32 old (f Old) /\ opnd 32 32 new (f New)) Loop.
  { pose proof Hi as (Fd & [_ Fo] & Fv). do 4 (stp; sil). stp. rewrite Fd, Z.add_0_r, Fo, low32_rd by auto.
    destruct (Z.eqb_spec (rd e (o_mem o0) a 4) old) as [H|H]; cbn [b2z Z.eqb].
    - sil. stp; sil. stp. rewrite Fd, low32_rd by auto. ks HE.
      + lin_at (rd e (o_mem o5) a 4, true). { split; [reflexivity|]. cbn [fst snd]. split; [congruence|]. eapply (wr_opnd e _ a 4); eauto; lia. }
        do 3 (stq; silq). done_q. rewrite <- HE. apply (ar_ret_ok _ _ true). apply low32_rd; auto.
      + sil. stp; sil. apply weaken. apply IH; cbnx; [lts|auto].
    - sil. do 2 (stp; sil). stp. rewrite Fd, low32_rd by auto. ks HE.
      + lin_at (rd e (o_mem o6) a 4, false). { split; [reflexivity|]. cbn [fst snd]. split; [congruence|]. rewrite <- HE. apply (wr_back e _ a 4); auto; lia. }
        do 3 (stq; silq). done_q. rewrite <- HE. apply (ar_ret_ok _ _ false). apply low32_rd; auto.
      + sil. stp; sil. apply weaken. apply IH; cbnx; [lts|auto]. }
  start f r. apply Loop. exact Hin.
Qed.

(* ---- sub-word ---- *)
Lemma lsl_eq x s : 0 <= s < 32 -> lsl_val x s = shl32 x s.
Proof. intros H. unfold lsl_val. rewrite (low_id 8 s) by (change (2 ^ 8) with 256; lia). destruct (Z.ltb_spec s 32); [reflexivity|lia]. Qed.
Lemma lsr_eq x s : 0 <= s < 32 -> lsr_val x s = shr32 x s.
Proof. intros H. unfold lsr_val. rewrite (low_id 8 s) by (change (2 ^ 8) with 256; lia). destruct (Z.ltb_spec s 32); [reflexivity|lia]. Qed.
Ltac subw_m E Hin_w Hs Hm Hr :=
  apply sub_word_ok in E; [|lia|lia|assumption|assumption|assumption|reflexivity];
  destruct E as (_ & _ & _ & Hin_w & _ & _ & Hm); cbn [SHIFT_MASK negb] in Hm; destruct Hm as [Hs Hm];
  specialize (Hm ltac:(lia)); pose proof (in_word_range _ _ _ _ _ _ Hin_w) as Hr.
Lemma low32_of n v : n = 1 \/ n = 2 -> 0 <= v < 2 ^ (8 * n) -> low 32 v = v.
Proof. intros Hn Hv. apply (low_small 32 (8 * n)); auto; lia. Qed.

Lemma al_swap_sub_fn_atomic e n a v : n = 1 \/ n = 2 -> 0 <= a < 2 ^ 32 -> a mod n = 0 -> 0 <= v < 2 ^ (8 * n) ->
  atomic_fx e (al_swap_sub_fn e n a v) (swap_spec e a n v).
Proof.
  intros Hn Ha Hal Hv. unfold al_swap_sub_fn.
  destruct (create_sub_word_mask_values A_arm e 32 32 n a) as [[dst shift] mask] eqn:E. subw_m E Hin_w Hs Hm Hr.
  unfl. set (s := field_pos e n a) in *. pose proof (low32_of n v Hn Hv) as Lv.
  loop_inv 1%nat (fun f : regs => f Dst = dst /\ f Shift = shift /\ f MaskN = not32 mask /\ f Val = shl32 v s) Loop.
  { pose proof Hi as (Fd & Fs & Fm & Fv). do 5 (stp; sil). stp. rewrite Fd, Z.add_0_r, low32_rd by auto. ks HE.
    - lin_at (rd e (o_mem o4) a n).
      { split; [reflexivity|]. eapply wr_field; eauto. rewrite Fm, Fv, Hm, <- HE.
        rewrite land_not32 by (try apply rdw_range; auto; apply (sub_mask_range e n a dst s Hin_w)).
        apply (sub_merge e n a dst s Hin_w); auto. }
      do 2 (stq; silq). done_q. rewrite Fs, Hs, lsr_eq by lia. rewrite <- HE. apply some_eq. apply (sub_out e n a dst s); auto.
    - sil. stp; sil. apply weaken. apply IH; cbnx; [lts|auto]. }
  start f r. destruct Hin as (Fd & Fs & Fm & Fv). stp; sil. apply weaken. apply Loop; cbnx.
  rewrite Fv, Fs, Hs, lsl_eq by lia. rewrite Hs in Fs. auto.
Qed.
Lemma al_cas_sub_fn_atomic e n a old new : n = 1 \/ n = 2 -> 0 <= a < 2 ^ 32 -> a mod n = 0 ->
  0 <= old < 2 ^ (8 * n) -> 0 <= new < 2 ^ (8 * n) ->
  atomic_fx e (al_cas_sub_fn e n a old new) (cas_spec e a n old new).
Proof.
  intros Hn Ha Hal Hold Hnew. unfold al_cas_sub_fn.
  destruct (create_sub_word_mask_values A_arm e 32 32 n a) as [[dst shift] mask] eqn:E. subw_m E Hin_w Hs Hm Hr.
  unfl. set (s := field_pos e n a) in *. pose proof (low32_of n old Hn Hold) as Lo. pose proof (low32_of n new Hn Hnew) as Lv.
  loop_inv 2%nat (fun f : regs => f Dst = dst /\ f Shift = shift /\ f Mask = mask /\ f Old = shl32 old s /\ f New = shl32 new s) Loop.
  { pose proof Hi as (Fd & Fs & Fm & Fo & Fv). do 4 (stp; sil). stp. rewrite Fd, Z.add_0_r, Fm, Hm, Fo.
    pose proof (sub_cmp e n a dst s Hin_w old old (o_mem o0) Ho0 Lo Hold) as CMP.
    set (M := Z.shiftl (2 ^ (8 * n) - 1) s) in *.
    assert (low 32 (Z.land (rd e (o_mem o0) dst 4) M) = Z.land (rd e (o_mem o0) dst 4) M) as LM.
    { apply low_id. pose proof (rdw_range e (o_mem o0) dst Ho0) as Q. split; [apply Z.land_nonneg; lia|].
      destruct (Z.eq_dec (Z.land (rd e (o_mem o0) dst 4) M) 0) as [->|N]; [lia|]. 
      apply Z.log2_lt_pow2; [assert (0 <= Z.land (rd e (o_mem o0) dst 4) M) by (apply Z.land_nonneg; lia); lia|].
      eapply Z.le_lt_trans; [apply Z.log2_land; [lia|apply (sub_mask_range e n a dst s Hin_w)]|].
      eapply Z.le_lt_trans; [apply Z.le_min_l|]. destruct (Z.eq_dec (rd e (o_mem o0) dst 4) 0) as [->|N2]; [cbn; lia|apply Z.log2_lt_pow2; lia]. }
    rewrite LM. rewrite (low_id 32 (shl32 old s)) by apply shl32_range.
    match type of CMP with (?x = ?y <-> _) => destruct (Z.eqb_spec x y) as [H|H] end; cbn [b2z Z.eqb].
    - apply CMP in H. sil. do 3 (stp; sil). stp. rewrite Fd, low32_rd by auto. ks HE.
      + pose proof (rd_field_eq e 4 dst a n s _ _ Hin_w Ho7 Ho0 HE) as EQ.
        lin_at (rd e (o_mem o7) a n, true).
        { split; [reflexivity|]. cbn [fst snd]. split; [congruence|]. eapply wr_field; eauto. rewrite Fm, Fv, Hm, <- HE.
          rewrite land_not32 by (try apply rdw_range; auto; apply (sub_mask_range e n a dst s Hin_w)).
          apply (sub_merge e n a dst s Hin_w); auto. }
        do 4 (stq; silq). done_q. rewrite Fs, Hs, lsr_eq by lia. rewrite <- HE. apply (ar_ret_ok _ _ true). apply (sub_out_and e n a dst s); auto.
      + sil. stp; sil. apply weaken. apply IH; cbnx; [lts|auto].
    - assert (rd e (o_mem o0) a n <> old) as H' by tauto. sil. do 2 (stp; sil). stp. rewrite Fd, low32_rd by auto. ks HE.
      + pose proof (rd_field_eq e 4 dst a n s _ _ Hin_w Ho6 Ho0 HE) as EQ.
        lin_at (rd e (o_mem o6) a n, false). { split; [reflexivity|]. cbn [fst snd]. split; [congruence|]. rewrite <- HE. apply (wr_back e _ dst 4); auto; lia. }
        do 4 (stq; silq). done_q. rewrite Fs, Hs, lsr_eq by lia. rewrite <- HE. apply (ar_ret_ok _ _ false). apply (sub_out_and e n a dst s); auto.
      + sil. stp; sil. apply weaken. apply IH; cbnx; [lts|auto]. }
  start f r. destruct Hin as (Fd & Fs & Fm & Fo & Fv). do 2 (stp; sil). apply weaken. apply Loop; cbnx.
  rewrite Fo, Fv, Fs, Hs, !lsl_eq by lia. rewrite Hs in Fs. auto.
Qed.

(* ---- 64-bit ---- *)
Lemma al_half e v f : al_buf e v f -> halves e 32 (f XC) (f XD) = v.
Proof. intros [-> ->]. apply halves_half; lia. Qed.
Ltac deref := unfold al_deref; cbnx;
  repeat match goal with H : _ Out = _ |- _ => progress rewrite H | H : _ AR1 = _ |- _ => progress rewrite H end; rewrite ?Z.eqb_refl.
Lemma al_load64_fn_atomic e po a : atomic_fx e (al_load64_fn e po a) (load_spec e a 8).
Proof.
  unfold al_load64_fn. unfl.
  loop_inv 0%nat (fun f : regs => f Dst = a /\ f AR1 = po) Loop.
  { destruct Hi as [Fd Fp]. do 6 (stp; sil). stp. rewrite Fd, Z.add_0_r. deref. ks HE.
    - lin_at (rd e (o_mem o5) a 8). { split; [reflexivity|]. rewrite <- HE. apply meq_sym, (wr_back e _ a 8); auto; lia. }
      stq; silq. done_q. now rewrite HE.
    - sil. stp; sil. apply weaken. apply IH; cbnx; [lts|auto]. }
  start f r. apply Loop. exact Hin.
Qed.
Ltac other := match goal with H : ?x <> ?y |- context [?x =? ?y] => rewrite (proj2 (Z.eqb_neq x y) H) end.
Lemma al_store64_fn_atomic e po a v : atomic_fx e (al_store64_fn e po a v) (store_spec e a 8 v).
Proof.
  unfold al_store64_fn. unfl.
  loop_inv 0%nat (fun f : regs => f Dst = a /\ f Out = po /\ f AR1 <> po /\ al_buf e v f) Loop.
  { destruct Hi as (Fd & Fp & Fq & Fb). do 6 (stp; sil). stp. rewrite Fd, Z.add_0_r. deref. other. ks HE.
    - lin_at tt. { red. rewrite (al_half e v) by auto. apply meq_refl. }
      stq; silq. done_q. reflexivity.
    - sil. stp; sil. apply weaken. apply IH; cbnx; [lts|auto]. }
  start f r. apply Loop. exact Hin.
Qed.
Lemma al_swap64_fn_atomic e po a v : atomic_fx e (al_swap64_fn e po a v) (swap_spec e a 8 v).
Proof.
  unfold al_swap64_fn. unfl.
  loop_inv 0%nat (fun f : regs => f Dst = a /\ f Out = po /\ f AR1 <> po /\ al_buf e v f) Loop.
  { destruct Hi as (Fd & Fp & Fq & Fb). do 6 (stp; sil). stp. rewrite Fd, Z.add_0_r. deref. other. ks HE.
    - lin_at (rd e (o_mem o5) a 8). { split; [reflexivity|]. rewrite (al_half e v) by auto. apply meq_refl. }
      stq; silq. done_q. now rewrite HE.
    - sil. stp; sil. apply weaken. apply IH; cbnx; [lts|auto]. }
  start f r. apply Loop. exact Hin.
Qed.
(* the two loads may see different memories *)
Lemma al_cmp8 e m m' a old f : wf_mem m -> wf_mem m' -> ar_pair e old Old OldHi f ->
  (Z.lor (Z.lxor (rd e m a 4) (f Old)) (Z.lxor (rd e m' (a + 4) 4) (f OldHi)) =? 0) =
  (halves e 32 (rd e m a 4) (rd e m' (a + 4) 4) =? old).
Proof.
  intros Hm Hm' [-> ->]. rewrite ar_eor. apply eq_true_iff_eq. rewrite andb_true_iff, !Z.eqb_eq.
  destruct (lo_first A_arm e 32 old (ar_first e)) as [-> ->]. symmetry. apply halves_inj; try apply (rd_range e _ _ 4); auto; lia.
Qed.
Lemma al_cas64_fn_atomic e po a old new : atomic_fx e (al_cas64_fn e po a old new) (cas_spec e a 8 old new).
Proof.
  unfold al_cas64_fn. unfl.
  loop_inv 0%nat (fun f : regs => f Dst = a /\ f Out = po /\ f New <> po /\ al_buf e new f /\ ar_pair e old Old OldHi f) Loop.
  { pose proof Hi as (Fd & Fp & Fq & Fb & Fo). do 8 (stp; sil). stp. rewrite Fd, Z.add_0_r, (al_cmp8 _ _ _ _ old) by auto.
    destruct (Z.eqb_spec (halves e 32 (rd e (o_mem o0) a 4) (rd e (o_mem o1) (a + 4) 4)) old) as [H|H]; cbn [b2z Z.eqb].
    - sil. do 2 (stp; sil). stp. rewrite Fd. deref. other. ks HE.
      + lin_at (rd e (o_mem o10) a 8, true).
        { split; [reflexivity|]. cbn [fst snd]. split; [congruence|]. rewrite (al_half e new) by auto. apply meq_refl. }
        do 3 (stq; silq). done_q. rewrite <- HE. now apply (ar_ret_ok _ _ true).
      + sil. stp; sil. apply weaken. apply IH; cbnx; [lts|]. repeat split; auto; apply Fb || apply Fo.
    - sil. do 3 (stp; sil). stp. rewrite Fd. deref. ks HE.
      + lin_at (rd e (o_mem o11) a 8, false).
        { split; [reflexivity|]. cbn [fst snd]. split; [congruence|]. rewrite <- HE. apply (wr_back e _ a 8); auto; lia. }
        do 3 (stq; silq). done_q. rewrite <- HE. now apply (ar_ret_ok _ _ false).
      + sil. stp; sil. apply weaken. apply IH; cbnx; [lts|]. repeat split; auto; apply Fb || apply Fo. }
  start f r. apply Loop. exact Hin.
Qed.

(* ---- what the trait implementations do ---- *)
Lemma al_sub_n n : al_sub n = true -> n = 1 \/ n = 2.
Proof. unfold al_sub. intros; beqs; destruct H; beqs; lia. Qed.
Theorem al_load_atomic e po n o a f : al_load e po n o a = Impl f -> atomic_fx e f (load_spec e a n).
Proof.
  unfold al_load. disp.
  - destruct (ar_sizes n E). apply al_load_fn_atomic; auto.
  - beqs. subst n. apply al_load64_fn_atomic.
Qed.
Theorem al_store_atomic e po n o a v f : al_store e po n o a v = Impl f -> atomic_fx e f (store_spec e a n v).
Proof.
  unfold al_store. disp.
  - destruct (ar_sizes n E). apply al_store_fn_atomic; auto.
  - beqs. subst n. apply al_store64_fn_atomic.
Qed.
Theorem al_swap_atomic e po n o a v f : 0 <= a < 2 ^ 32 -> a mod n = 0 -> 0 <= v < 2 ^ (8 * n) ->
  al_swap e po n o a v = Impl f -> atomic_fx e f (swap_spec e a n v).
Proof.
  intros Ha Hal Hv. unfold al_swap. disp.
  - apply al_swap_sub_fn_atomic; auto using al_sub_n.
  - beqs. subst n. apply al_swap_fn_atomic.
  - beqs. subst n. apply al_swap64_fn_atomic.
Qed.
Theorem al_cas_atomic e po n os of a old new f : 0 <= a < 2 ^ 32 -> a mod n = 0 -> 0 <= old < 2 ^ (8 * n) -> 0 <= new < 2 ^ (8 * n) ->
  al_cas e po n os of a old new = Impl f -> atomic_fx e f (cas_spec e a n old new).
Proof.
  intros Ha Hal Ho Hv. unfold al_cas. disp.
  - apply al_cas_sub_fn_atomic; auto using al_sub_n.
  - beqs. subst n. apply al_cas_fn_atomic; auto.
  - beqs. subst n. apply al_cas64_fn_atomic.
Qed.
