From Verif Require Import P_legacy Arch_arm_linuxl Sub32 Wide P_arm P_armv8l P_arml P_arm_linux.
Ltac unfl := unfold cmp0; P_arm_linux.unfl; P_legacy.unfl.

Lemma al_nz0 j : (al_nz j =? 0) = false.
Proof. unfold al_nz. destruct (Z.eqb_spec j 0); [reflexivity|]. now apply Z.eqb_neq. Qed.
(* after a failed helper call *)
Ltac kback := stp; rewrite al_nz0; sil; stp; sil.
Lemma all_mask e n a dst s v : in_word e 4 dst a n s -> 0 <= v < 2 ^ (8 * n) -> Z.land (shl32 v s) (Z.shiftl (2 ^ (8 * n) - 1) s) = shl32 v s.
Proof.
  intros Hin Hv. destruct (in_word_range _ _ _ _ _ _ Hin) as (Hs & Hsn & Hn).
  apply Z.bits_inj'. intros i Hi. rewrite Z.land_spec. destruct (Z.testbit (shl32 v s) i) eqn:E; [|reflexivity].
  assert (i < 32) as Hi32.
  { destruct (Z.ltb_spec i 32); [assumption|]. exfalso. rewrite (bits_above (shl32 v s) 32) in E; [discriminate|apply shl32_range|lia]. }
  rewrite shl32_bits in E by lia. rewrite Z.shiftl_spec in * by lia.
  destruct (Z.ltb_spec i s); [rewrite Z.testbit_neg_r in E by lia; discriminate|].
  rewrite Z.sub_1_r, <- Z.ones_equiv. rewrite Z.ones_spec_low; [reflexivity|]. split; [lia|].
  destruct (Z.ltb_spec (i - s) (8 * n)); [assumption|]. exfalso. rewrite (bits_above v (8 * n)) in E; [discriminate|assumption|lia].
Qed.

Lemma alg_load_fn_atomic e b n a t : 0 < n -> atomic_fx e (alg_load_fn b n a t) (load_spec e a n).
Proof.
  intros Hn. unfold alg_load_fn. unfl. start f r. destruct Hin as [Hs Fo].
  stp. rewrite Hs, Z.add_0_r. lin_at (rd e (o_mem o) a n); [apply load_spec_refl|].
  gop Fo. done_q. rewrite rd_low by (auto; lia). reflexivity.
Qed.
Lemma alg_store_fn_atomic e b n a v t : 0 < n -> atomic_fx e (alg_store_fn b n a v t) (store_spec e a n v).
Proof.
  intros Hn. unfold alg_store_fn. destruct t as [re fe]. unfl. start f r. destruct Hin as [Ha Hv]. stp. priv Hv. sil.
  stp; sil. stp. rewrite Ha, Z.add_0_r. lin_at tt; [apply meq_refl|]. stq. silq. done_q. reflexivity.
Qed.
Lemma alg_swap_fn_atomic e b a v : atomic_fx e (alg_swap_fn b a v) (swap_spec e a 4 v).
Proof.
  unfold alg_swap_fn. unfl.
  loop_inv 1%nat (fun f : regs => f Dst = a /\ f AR1 = v /\ f OutP = b_out b) Loop.
  { destruct Hi as (Fd & Fv & Fo). do 3 (stp; sil). stp. rewrite Fd, Z.add_0_r, low32_rd by auto. ks HE.
    - lin_at (rd e (o_mem o2) a 4). { split; [reflexivity|]. rewrite Fv. apply meq_refl. }
      gop Fo. done_q. rewrite <- HE. change (8 * 4) with 32. rewrite low32_rd by auto. reflexivity.
    - sil. kback. apply weaken. apply IH; cbnx; [lts|auto]. }
  start f r. destruct Hin as (Ha & Hv & Fo). stp. priv Hv. sil. apply weaken. apply Loop. cbnx. auto.
Qed.
Lemma alg_cas_fn_atomic e b a old new : 0 <= old < 2 ^ 32 -> atomic_fx e (alg_cas_fn b a old new) (cas_spec e a 4 old new).
Proof.
  intros Hold. unfold alg_cas_fn. unfl.
  loop_inv 2%nat (fun f : regs => f Dst = a /\ f Old = old /\ f New = new /\ f OutP = b_out b) Loop.
  { pose proof Hi as (Fd & Fo & Fv & Fp). do 4 (stp; sil). stp. rewrite Fd, Z.add_0_r, Fo, (low_id 32 old), low32_rd by auto.
    destruct (Z.eqb_spec (rd e (o_mem o0) a 4) old) as [H|H]; cbn [b2z Z.eqb].
    - sil. stp; sil. stp. rewrite Fd, low32_rd by auto. ks HE.
      + lin_at (rd e (o_mem o5) a 4, true). { split; [reflexivity|]. cbn [fst snd]. split; [congruence|]. rewrite Fv. apply meq_refl. }
        gop Fp. done_q. rewrite <- HE. apply (ar_ret_ok _ _ true). apply low32_rd; auto.
      + sil. kback. apply weaken. apply IH; cbnx; [lts|auto].
    - sil. do 2 (stp; sil). stp. rewrite Fd, low32_rd by auto. ks HE.
      + lin_at (rd e (o_mem o6) a 4, false). { split; [reflexivity|]. cbn [fst snd]. split; [congruence|]. rewrite <- HE. apply (wr_back e _ a 4); auto; lia. }
        gop Fp. done_q. rewrite <- HE. apply (ar_ret_ok _ _ false). apply low32_rd; auto.
      + sil. kback. apply weaken. apply IH; cbnx; [lts|auto]. }
  start f r. destruct Hin as (Fd & Fo & Fv & Fp). stp. priv Fo. sil. stp. priv Fv. sil. apply weaken. apply Loop. cbnx. auto.
Qed.

(* ---- sub-word ---- *)
Lemma alg_swap_sub_fn_atomic e b n a v : n = 1 \/ n = 2 -> 0 <= a < 2 ^ 32 -> a mod n = 0 -> 0 <= v < 2 ^ (8 * n) ->
  atomic_fx e (alg_swap_sub_fn e b n a v) (swap_spec e a n v).
Proof.
  intros Hn Ha Hal Hv. unfold alg_swap_sub_fn.
  destruct (create_sub_word_mask_values A_arm e 32 32 n a) as [[dst shift] mask] eqn:E. subw_m E Hin_w Hs Hm Hr.
  unfl. set (s := field_pos e n a) in *. pose proof (low32_of n v Hn Hv) as Lv.
  loop_inv 3%nat (fun f : regs => f Dst = dst /\ f Shift = shift /\ f MaskN = not32 mask /\ f Val = shl32 v s /\ f OutP = b_out b) Loop.
  { pose proof Hi as (Fd & Fs & Fm & Fv & Fp). do 5 (stp; sil). stp. rewrite Fd, Z.add_0_r, low32_rd by auto. ks HE.
    - lin_at (rd e (o_mem o4) a n).
      { split; [reflexivity|]. eapply wr_field; eauto. rewrite Fm, Fv, Hm, <- HE.
        rewrite land_not32 by (try apply rdw_range; auto; apply (sub_mask_range e n a dst s Hin_w)).
        apply (sub_merge e n a dst s Hin_w); auto. }
      gop Fp. done_q. rewrite Fs, Hs, lsr_eq by lia. rewrite <- HE. apply some_eq. apply (sub_out e n a dst s); auto.
    - sil. kback. apply weaken. apply IH; cbnx; [lts|auto]. }
  start f r. destruct Hin as (Fd & Fs & Fk & Fm & Fv & Fp). stp. priv Fv. sil. do 2 (stp; sil). apply weaken. apply Loop; cbnx.
  rewrite Fs, Fk, Hs, Hm, lsl_eq, (all_mask e n a dst s) by (auto; lia). rewrite Hs in Fs. rewrite Hm in Fm. auto.
Qed.
Lemma alg_cas_sub_fn_atomic e b n a old new : n = 1 \/ n = 2 -> 0 <= a < 2 ^ 32 -> a mod n = 0 ->
  0 <= old < 2 ^ (8 * n) -> 0 <= new < 2 ^ (8 * n) ->
  atomic_fx e (alg_cas_sub_fn e b n a old new) (cas_spec e a n old new).
Proof.
  intros Hn Ha Hal Hold Hnew. unfold alg_cas_sub_fn.
  destruct (create_sub_word_mask_values A_arm e 32 32 n a) as [[dst shift] mask] eqn:E. subw_m E Hin_w Hs Hm Hr.
  unfl. set (s := field_pos e n a) in *. pose proof (low32_of n old Hn Hold) as Lo. pose proof (low32_of n new Hn Hnew) as Lv.
  loop_inv 6%nat (fun f : regs => f Dst = dst /\ f Shift = shift /\ f Mask = mask /\ f Old = shl32 old s /\ f New = shl32 new s /\ f OutP = b_out b) Loop.
  { pose proof Hi as (Fd & Fs & Fm & Fo & Fv & Fp). do 4 (stp; sil). stp. rewrite Fd, Z.add_0_r, Fm, Hm, Fo.
    pose proof (sub_cmp e n a dst s Hin_w old old (o_mem o0) Ho0 Lo Hold) as CMP.
    set (M := Z.shiftl (2 ^ (8 * n) - 1) s) in *.
    assert (low 32 (Z.land (rd e (o_mem o0) dst 4) M) = Z.land (rd e (o_mem o0) dst 4) M) as LM.
    { apply low_id. pose proof (rdw_range e (o_mem o0) dst Ho0) as Q. split; [apply Z.land_nonneg; lia|].
      destruct (Z.eq_dec (Z.land (rd e (o_mem o0) dst 4) M) 0) as [->|N]; [lia|]. 
      apply Z.log2_lt_pow2; [assert (0 <= Z.land (rd e (o_mem o0) dst 4) M) by (apply Z.land_nonneg; lia); lia|].
      eapply Z.le_lt_trans; [apply Z.log2_land; [lia|apply (sub_mask_range e n a dst s Hin_w)]|].
      eapply Z.le_lt_trans; [apply Z.le_min_l|]. destruct (Z.eq_dec (rd e (o_mem o0) dst 4) 0) as [->|N2]; [cbn; lia|apply Z.log2_lt_pow2; lia]. }
    rewrite LM. rewrite (low_id 32 (shl32 old s)) by apply shl32_range.
    match type of CMP with (?x = ?y <-> _) => destruct (Z.eqb_spec x y) as [H|H] end; cbn [b2z Z.eqb].
    - apply CMP in H. sil. do 3 (stp; sil). stp. rewrite Fd, low32_rd by auto. ks HE.
      + pose proof (rd_field_eq e 4 dst a n s _ _ Hin_w Ho7 Ho0 HE) as EQ.
        lin_at (rd e (o_mem o7) a n, true).
        { split; [reflexivity|]. cbn [fst snd]. split; [congruence|]. eapply wr_field; eauto. rewrite Fm, Fv, Hm, <- HE.
          rewrite land_not32 by (try apply rdw_range; auto; apply (sub_mask_range e n a dst s Hin_w)).
          apply (sub_merge e n a dst s Hin_w); auto. }
        gop Fp. done_q. rewrite Fs, Hs, lsr_eq by lia. rewrite <- HE. apply (ar_ret_ok _ _ true). apply (sub_out_and e n a dst s); auto.
      + sil. kback. apply weaken. apply IH; cbnx; [lts|auto].
    - assert (rd e (o_mem o0) a n <> old) as H' by tauto. sil. do 2 (stp; sil). stp. rewrite Fd, low32_rd by auto. ks HE.
      + pose proof (rd_field_eq e 4 dst a n s _ _ Hin_w Ho6 Ho0 HE) as EQ.
        lin_at (rd e (o_mem o6) a n, false). { split; [reflexivity|]. cbn [fst snd]. split; [congruence|]. rewrite <- HE. apply (wr_back e _ dst 4); auto; lia. }
        gop Fp. done_q. rewrite Fs, Hs, lsr_eq by lia. rewrite <- HE. apply (ar_ret_ok _ _ false). apply (sub_out_and e n a dst s); auto.
      + sil. kback. apply weaken. apply IH; cbnx; [lts|auto]. }
  start f r. destruct Hin as (Fd & Fs & Fm & Fo & Fv & Fp). stp. priv Fo. sil. stp. priv Fv. sil. do 4 (stp; sil). apply weaken. apply Loop; cbnx.
  rewrite Fs, Fm, Hs, Hm, !lsl_eq, !(all_mask e n a dst s) by (auto; lia). rewrite Hs in Fs. rewrite Hm in Fm. auto 10.
Qed.

(* ---- 64-bit ---- *)
Lemma alg_load64_fn_atomic e b a : atomic_fx e (alg_load64_fn e b a) (load_spec e a 8).
Proof.
  unfold alg_load64_fn. unfl.
  loop_inv 0%nat (fun f : regs => f Dst = a /\ f AR1 = b_out b) Loop.
  { destruct Hi as [Fd Fp]. do 6 (stp; sil). stp. rewrite Fd, Z.add_0_r. deref. ks HE.
    - lin_at (rd e (o_mem o5) a 8). { split; [reflexivity|]. rewrite <- HE. apply meq_sym, (wr_back e _ a 8); auto; lia. }
      goq. done_q. now rewrite HE.
    - sil. kback. apply weaken. apply IH; cbnx; [lts|auto]. }
  start f r. apply Loop. exact Hin.
Qed.
Lemma alg_store64_fn_atomic e b a v : b_val b <> b_out b -> atomic_fx e (alg_store64_fn e b a v) (store_spec e a 8 v).
Proof.
  intros Hb. unfold alg_store64_fn. unfl.
  loop_inv 0%nat (fun f : regs => f Dst = a /\ f Out = b_out b /\ f AR1 <> b_out b /\ al_buf e v f) Loop.
  { destruct Hi as (Fd & Fp & Fq & Fb). do 6 (stp; sil). stp. rewrite Fd, Z.add_0_r. deref. other. ks HE.
    - lin_at tt. { red. rewrite (al_half e v) by auto. apply meq_refl. }
      goq. done_q. reflexivity.
    - sil. kback. apply weaken. apply IH; cbnx; [lts|auto]. }
  start f r. apply Loop. destruct Hin as (Fd & Fp & Fq & Fb). rewrite <- Fq in Hb. auto.
Qed.
Lemma alg_swap64_fn_atomic e b a v : b_val b <> b_out b -> atomic_fx e (alg_swap64_fn e b a v) (swap_spec e a 8 v).
Proof.
  intros Hb. unfold alg_swap64_fn. unfl.
  loop_inv 0%nat (fun f : regs => f Dst = a /\ f Out = b_out b /\ f AR1 <> b_out b /\ al_buf e v f) Loop.
  { destruct Hi as (Fd & Fp & Fq & Fb). do 6 (stp; sil). stp. rewrite Fd, Z.add_0_r. deref. other. ks HE.
    - lin_at (rd e (o_mem o5) a 8). { split; [reflexivity|]. rewrite (al_half e v) by auto. apply meq_refl. }
      goq. done_q. now rewrite HE.
    - sil. kback. apply weaken. apply IH; cbnx; [lts|auto]. }
  start f r. apply Loop. destruct Hin as (Fd & Fp & Fq & Fb). rewrite <- Fq in Hb. auto.
Qed.
Lemma alg_cas64_fn_atomic e b a old new : b_new b <> b_out b -> atomic_fx e (alg_cas64_fn e b a old new) (cas_spec e a 8 old new).
Proof.
  intros Hb. unfold alg_cas64_fn. unfl.
  loop_inv 2%nat (fun f : regs => f Dst = a /\ f Out = b_out b /\ f New <> b_out b /\ al_buf e new f /\ ar_pair e old Old OldHi f) Loop.
  { pose proof Hi as (Fd & Fp & Fq & Fb & Fo). do 8 (stp; sil). stp. rewrite Fd, Z.add_0_r, (al_cmp8 _ _ _ _ old) by auto.
    destruct (Z.eqb_spec (halves e 32 (rd e (o_mem o0) a 4) (rd e (o_mem o1) (a + 4) 4)) old) as [H|H]; cbn [b2z Z.eqb].
    - sil. do 2 (stp; sil). stp. rewrite Fd. deref. other. ks HE.
      + lin_at (rd e (o_mem o10) a 8, true).
        { split; [reflexivity|]. cbn [fst snd]. split; [congruence|]. rewrite (al_half e new) by auto. apply meq_refl. }
        goq. done_q. rewrite <- HE. now apply (ar_ret_ok _ _ true).
      + sil. kback. apply weaken. apply IH; cbnx; [lts|]. repeat split; auto; apply Fb || apply Fo.
    - sil. do 3 (stp; sil). stp. rewrite Fd. deref. ks HE.
      + lin_at (rd e (o_mem o11) a 8, false).
        { split; [reflexivity|]. cbn [fst snd]. split; [congruence|]. rewrite <- HE. apply (wr_back e _ a 8); auto; lia. }
        goq. done_q. rewrite <- HE. now apply (ar_ret_ok _ _ false).
      + sil. kback. apply weaken. apply IH; cbnx; [lts|]. repeat split; auto; apply Fb || apply Fo. }
  start f r. destruct Hin as (Fd & Fp & Fq & Fb & Fo). stp. priv Fo. sil. stp. priv Fo. sil. apply weaken. apply Loop. cbnx.
  rewrite <- Fq in Hb. split; [auto|]. split; [auto|]. split; [auto|]. split; [exact Fb|]. apply arl_pair; cbnx; auto.
Qed.

(* ---- what the trait implementations do ---- *)
Theorem alg_load_atomic e b n o a f : alg_load e b n o a = Impl f -> atomic_fx e f (load_spec e a n).
Proof.
  unfold alg_load. disp.
  - destruct (ar_sizes n E). apply alg_load_fn_atomic; auto.
  - beqs. subst n. apply alg_load64_fn_atomic.
Qed.
Theorem alg_store_atomic e b n o a v f : b_val b <> b_out b -> alg_store e b n o a v = Impl f -> atomic_fx e f (store_spec e a n v).
Proof.
  intros Hb. unfold alg_store. disp.
  - destruct (ar_sizes n E). apply alg_store_fn_atomic; auto.
  - beqs. subst n. apply alg_store64_fn_atomic; auto.
Qed.
Theorem alg_swap_atomic e b n o a v f : b_val b <> b_out b -> 0 <= a < 2 ^ 32 -> a mod n = 0 -> 0 <= v < 2 ^ (8 * n) ->
  alg_swap e b n o a v = Impl f -> atomic_fx e f (swap_spec e a n v).
Proof.
  intros Hb Ha Hal Hv. unfold alg_swap. disp.
  - apply alg_swap_sub_fn_atomic; auto using al_sub_n.
  - beqs. subst n. apply alg_swap_fn_atomic.
  - beqs. subst n. apply alg_swap64_fn_atomic; auto.
Qed.
Theorem alg_cas_atomic e b n os of a old new f : b_new b <> b_out b -> 0 <= a < 2 ^ 32 -> a mod n = 0 -> 0 <= old < 2 ^ (8 * n) -> 0 <= new < 2 ^ (8 * n) ->
  alg_cas e b n os of a old new = Impl f -> atomic_fx e f (cas_spec e a n old new).
Proof.
  intros Hb Ha Hal Ho Hv. unfold alg_cas. disp.
  - apply alg_cas_sub_fn_atomic; auto using al_sub_n.
  - beqs. subst n. apply alg_cas_fn_atomic; auto.
  - beqs. subst n. apply alg_cas64_fn_atomic; auto.
Qed.
