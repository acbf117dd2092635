From Verif Require Import Sym Arch_hexagon Sub32 Wide.

Ltac silq ::= cbn [b2z Z.eqb Pos.eqb negb]; split; [reflexivity|].
Ltac sil ::= cbn [b2z Z.eqb Pos.eqb negb]; left; split; [reflexivity|].
Ltac unfh := unfold hx_sc, hx_scd, hx_memd, hx_std, hx_cmpeq, jump_if_not, asl, asr.
Lemma low32_small n v : n = 1 \/ n = 2 -> 0 <= v < 2 ^ (8 * n) -> low 32 v = v.
Proof. intros Hn Hv. apply low_id. split; [lia|]. eapply Z.lt_le_trans; [apply Hv|]. apply Z.pow_le_mono_r; lia. Qed.

Lemma hx_load_fn_atomic n a : 0 < n -> atomic_fx LE (hx_load_fn n a) (load_spec LE a n).
Proof.
  intros Hn. unfold hx_load_fn. start f r.
  stp. rewrite Hin, Z.add_0_r. lin_at (rd LE (o_mem o) a n); [apply load_spec_refl|].
  done_q. rewrite rd_low by (auto; lia). reflexivity.
Qed.
Lemma hx_store_fn_atomic n a v : 0 < n -> atomic_fx LE (hx_store_fn n a v) (store_spec LE a n v).
Proof.
  intros Hn. unfold hx_store_fn. start f r. destruct Hin as [Ha Hv].
  stp. rewrite Ha, Z.add_0_r. lin_at tt; [eapply wr_opnd; eauto; lia|]. done_q. reflexivity.
Qed.
Lemma hx_swap_fn_atomic a v : atomic_fx LE (hx_swap_fn a v) (swap_spec LE a 4 v).
Proof.
  unfold hx_swap_fn. unfh.
  loop_inv 0%nat (fun f : regs => f Dst = a /\ opnd 32 32 v (f Val)) Loop.
  { destruct Hi as [Fd Fv]. do 2 (stp; sil). stp. rewrite Fd. sc_case HE.
    - lin_at (rd LE (o_mem o1) a 4). { split; [reflexivity|]. eapply (wr_opnd LE _ a 4); eauto; lia. }
      stq; silq. done_q. rewrite <- HE. now rewrite low32_rd by auto.
    - sil. stp; sil. apply weaken. apply IH; cbnx; [lts|auto]. }
  start f r. apply Loop. exact Hin.
Qed.
Lemma hx_cas_fn_atomic a old new : atomic_fx LE (hx_cas_fn a old new) (cas_spec LE a 4 old new).
Proof.
  unfold hx_cas_fn. unfh.
  loop_inv 0%nat (fun f : regs => f Dst = a /\ opnd 32 32 old (f Old) /\ opnd 32 32 new (f New) /\ f R = 1) Loop.
  { pose proof Hi as (Fd & [Fo1 Fo2] & Fv & Fr). rewrite low_id in Fo2 by auto. do 3 (stp; sil). stp. rewrite Fd, Fo2.
    destruct (Z.eqb_spec (rd LE (o_mem o0) a 4) old) as [H|H]; cbn [b2z Z.eqb].
    - sil. stp. rewrite Fd. sc_case HE.
      + lin_at (rd LE (o_mem o3) a 4, true). { split; [reflexivity|]. cbn [fst snd]. split; [congruence|]. eapply (wr_opnd LE _ a 4); eauto; lia. }
        do 3 (stq; silq). done_q. rewrite Fr, <- HE. apply (ret_cas_ok 4 _ _ true). apply low32_rd; auto.
      + sil. stp; sil. apply weaken. apply IH; cbnx; [lts|auto].
    - sil. commit_at (o_mem o0) (rd LE (o_mem o0) a 4, false). { apply cas_fail_spec; auto. }
      do 3 (stq; silq). done_q. apply (ret_cas_ok 4 _ _ false). apply low32_rd; auto. }
  start f r. apply Loop. exact Hin.
Qed.

(* ---- sub-word ---- *)
Lemma hx_amt_id s : 0 <= s < 32 -> hx_amt s = s.
Proof. intros H. unfold hx_amt. rewrite (low_id 7 s) by (change (2 ^ 7) with 128; lia). destruct (Z.ltb_spec s 64); lia. Qed.
Lemma asl_eq x s : 0 <= s < 32 -> asl_val x s = shl32 x s.
Proof. intros H. unfold asl_val. rewrite hx_amt_id by auto. destruct (Z.leb_spec 0 s); [reflexivity|lia]. Qed.
Lemma asr_eq n x s : 0 <= n -> 0 <= s -> s + 8 * n <= 32 -> s < 32 -> 0 <= x < 2 ^ 32 -> low (8 * n) (asr_val x s) = low (8 * n) (shr32 x s).
Proof.
  intros Hn Hs Hsn Hs2 Hx. unfold asr_val, shr32. rewrite hx_amt_id by lia. destruct (Z.leb_spec 0 s); [|lia].
  rewrite low_low by lia. apply low_eq_bits; [lia|]. intros b Hb. rewrite !Z.shiftr_spec by lia. rewrite (low_id 32 x) by auto.
  unfold s32. destruct (x <? 2 ^ 31); [reflexivity|].
  replace (x - 2 ^ 32) with (x + (-1) * 2 ^ 32) by lia.
  rewrite <- (Z.mod_pow2_bits_low _ 32) by lia. rewrite Z.mod_add by lia. apply Z.mod_pow2_bits_low; lia.
Qed.
Ltac subw_h E Hin_w Hs Hm Hr :=
  apply sub_word_ok in E; [|lia|lia|assumption|assumption|assumption|reflexivity];
  destruct E as (_ & _ & _ & Hin_w & _ & _ & Hm); cbn [SHIFT_MASK negb] in Hm; destruct Hm as [Hs Hm];
  specialize (Hm ltac:(lia)); pose proof (in_word_range _ _ _ _ _ _ Hin_w) as Hr.
Lemma hx_swap_sub_fn_atomic n a v : n = 1 \/ n = 2 -> 0 <= a < 2 ^ 32 -> a mod n = 0 -> 0 <= v < 2 ^ (8 * n) ->
  atomic_fx LE (hx_swap_sub_fn n a v) (swap_spec LE a n v).
Proof.
  intros Hn Ha Hal Hv. unfold hx_swap_sub_fn.
  destruct (create_sub_word_mask_values A_hexagon LE 32 32 n a) as [[dst shift] mask] eqn:E. subw_h E Hin_w Hs Hm Hr.
  unfh. set (s := field_pos LE n a) in *. pose proof (low32_small n v Hn Hv) as Lv.
  loop_inv 1%nat (fun f : regs => f Dst = dst /\ f Shift = shift /\ f Mask = mask /\ f Val = shl32 v s) Loop.
  { pose proof Hi as (Fd & Fs & Fm & Fv). do 4 (stp; sil). stp. rewrite Fd. sc_case HE.
    - lin_at (rd LE (o_mem o3) a n).
      { split; [reflexivity|]. eapply wr_field; eauto. rewrite Fm, Fv, Hm, <- HE. apply (sub_merge LE n a dst s Hin_w); auto. }
      do 2 (stq; silq). done_q. rewrite Fs, Hs, <- HE. apply some_eq. rewrite asr_eq by (try apply rdw_range; auto; lia). apply (sub_out LE n a dst s); auto.
    - sil. stp; sil. apply weaken. apply IH; cbnx; [lts|auto]. }
  start f r. destruct Hin as (Fd & Fs & Fm & Fv). stp; sil. apply weaken. apply Loop; cbnx.
  rewrite Fv, Fs, Hs, asl_eq by lia. rewrite Hs in Fs. auto.
Qed.
Lemma hx_cas_sub_fn_atomic n a old new : n = 1 \/ n = 2 -> 0 <= a < 2 ^ 32 -> a mod n = 0 ->
  0 <= old < 2 ^ (8 * n) -> 0 <= new < 2 ^ (8 * n) ->
  atomic_fx LE (hx_cas_sub_fn n a old new) (cas_spec LE a n old new).
Proof.
  intros Hn Ha Hal Hold Hnew. unfold hx_cas_sub_fn.
  destruct (create_sub_word_mask_values A_hexagon LE 32 32 n a) as [[dst shift] mask] eqn:E. subw_h E Hin_w Hs Hm Hr.
  unfh. set (s := field_pos LE n a) in *. pose proof (low32_small n old Hn Hold) as Lo. pose proof (low32_small n new Hn Hnew) as Lv.
  loop_inv 2%nat (fun f : regs => f Dst = dst /\ f Shift = shift /\ f Mask = mask /\ f Old = shl32 old s /\ f New = shl32 new s /\ f R = 1) Loop.
  { pose proof Hi as (Fd & Fs & Fm & Fo & Fv & Fr). do 4 (stp; sil). stp. rewrite Fd, Fm, Hm, Fo.
    pose proof (sub_cmp LE n a dst s Hin_w old old (o_mem o0) Ho0 Lo Hold) as CMP.
    match type of CMP with (?x = ?y <-> _) => destruct (Z.eqb_spec x y) as [H|H] end; cbn [b2z Z.eqb].
    - apply CMP in H. sil. do 2 (stp; sil). stp. rewrite Fd. sc_case HE.
      + pose proof (rd_field_eq LE 4 dst a n s _ _ Hin_w Ho6 Ho0 HE) as EQ.
        lin_at (rd LE (o_mem o6) a n, true).
        { split; [reflexivity|]. cbn [fst snd]. split; [congruence|]. eapply wr_field; eauto. rewrite Fm, Fv, Hm, <- HE. apply (sub_merge LE n a dst s Hin_w); auto. }
        do 4 (stq; silq). done_q. rewrite Fr, Fs, Hs, <- HE. apply (ret_cas_ok n _ _ true).
        rewrite asr_eq by (try apply rdw_range; auto; lia). apply (sub_out LE n a dst s); auto.
      + sil. stp; sil. apply weaken. apply IH; cbnx; [lts|auto].
    - assert (rd LE (o_mem o0) a n <> old) as H' by tauto. sil.
      commit_at (o_mem o0) (rd LE (o_mem o0) a n, false). { apply cas_fail_spec; auto. }
      do 4 (stq; silq). done_q. rewrite Fs, Hs. apply (ret_cas_ok n _ _ false).
      rewrite asr_eq by (try apply rdw_range; auto; lia). apply (sub_out LE n a dst s); auto. }
  start f r. destruct Hin as (Fd & Fs & Fm & Fo & Fv & Fr). do 2 (stp; sil). apply weaken. apply Loop; cbnx.
  rewrite Fo, Fv, Fs, Hs, !asl_eq by lia. rewrite Hs in Fs. auto 8.
Qed.

(* ---- 64-bit ---- *)
Lemma hx_split v : pair_lo A_hexagon LE 32 v = half1 LE 32 v /\ pair_hi A_hexagon LE 32 v = half2 LE 32 v.
Proof. apply lo_first. reflexivity. Qed.
Lemma hx_join_rd m a : wf_mem m -> hx_join (rd LE m a 4) (rd LE m (a + 4) 4) = rd LE m a 8.
Proof.
  intros Hm. unfold hx_join. rewrite lo_first_join; [apply (halves_rd LE m a 4); auto; lia|reflexivity|lia| |];
  apply (rd_range LE m _ 4); auto; lia.
Qed.
Lemma hx_pre v rl rh f : hx_pair v rl rh f -> halves LE 32 (f rl) (f rh) = v.
Proof. intros [-> ->]. destruct (hx_split v) as [-> ->]. apply halves_half; lia. Qed.
Lemma hx_wr m a v rl rh f : hx_pair v rl rh f -> meq (wr LE (wr LE m a 4 (f rl)) (a + 4) 4 (f rh)) (wr LE m a 8 v).
Proof. intros H. eapply meq_trans; [apply (halves_wr LE m a 4); lia|]. change (8 * 4) with 32. rewrite (hx_pre v) by auto. apply meq_refl. Qed.
Lemma hx_cas8 m a old rl rh f : wf_mem m -> hx_pair old rl rh f ->
  (rd LE m a 4 = f rl /\ rd LE m (a + 4) 4 = f rh) <-> rd LE m a 8 = old.
Proof.
  intros Hm [-> ->]. destruct (hx_split old) as [-> ->].
  rewrite <- (halves_inj LE 32) by (try apply (rd_range LE m _ 4); auto; lia). pose proof (halves_rd LE m a 4 Hm ltac:(lia)) as Q.
  change (2 * 4) with 8 in Q. change (8 * 4) with 32 in Q. now rewrite Q.
Qed.
Lemma hx_load64_fn_atomic a : atomic_fx LE (hx_load64_fn a) (load_spec LE a 8).
Proof.
  unfold hx_load64_fn. unfh. start f r. stp. rewrite Hin. lin_at (rd LE (o_mem o) a 8); [apply load_spec_refl|].
  done_q. apply some_eq. apply (join_low_shiftr 32); lia.
Qed.
Lemma hx_store64_fn_atomic a v : atomic_fx LE (hx_store64_fn a v) (store_spec LE a 8 v).
Proof.
  unfold hx_store64_fn. unfh. start f r. destruct Hin as [Fd Fp]. stp. rewrite Fd.
  pose proof (hx_pre v AR2 AR3 f Fp) as Q. cbn [halves] in Q. rewrite Q.
  lin_at tt; [apply meq_refl|]. done_q. reflexivity.
Qed.
Lemma hx_swap64_fn_atomic a v : atomic_fx LE (hx_swap64_fn a v) (swap_spec LE a 8 v).
Proof.
  unfold hx_swap64_fn. unfh.
  loop_inv 0%nat (fun f : regs => f Dst = a /\ hx_pair v AR2 AR3 f) Loop.
  { destruct Hi as [Fd Fp]. do 2 (stp; sil). stp. rewrite Fd. scp_case HE.
    - lin_at (rd LE (o_mem o1) a 8). { split; [reflexivity|]. apply (hx_wr _ a v AR2 AR3 f); auto. }
      stq; silq. done_q. apply some_eq. rewrite <- HE1, <- HE2. apply hx_join_rd; auto.
    - sil. stp; sil. apply weaken. apply IH; cbnx; [lts|auto]. }
  start f r. apply Loop. exact Hin.
Qed.
Lemma hx_ret_ok (x v r : Z) (b : bool) : x = v -> r = b2z b -> (if (r =? 0) || (r =? 1) then Some (x, negb (r =? 0)) else None) = Some (v, b).
Proof. intros <- ->. destruct b; reflexivity. Qed.
Lemma hx_cas64_fn_atomic a old new : atomic_fx LE (hx_cas64_fn a old new) (cas_spec LE a 8 old new).
Proof.
  unfold hx_cas64_fn. unfh.
  loop_inv 0%nat (fun f : regs => f Dst = a /\ hx_pair old AR2 AR3 f /\ hx_pair new AR4 AR5 f /\ f R = 1) Loop.
  { pose proof Hi as (Fd & Fo & Fv & Fr). do 3 (stp; sil). stp. rewrite Fd. pose proof (hx_cas8 (o_mem o0) a old AR2 AR3 f Ho0 Fo) as CMP.
    destruct (Z.eqb_spec (rd LE (o_mem o0) a 4) (f AR2)) as [H|H]; cbn [b2z Z.eqb].
    - sil. stp; sil. stp. destruct (Z.eqb_spec (rd LE (o_mem o0) (a + 4) 4) (f AR3)) as [H'|H']; cbn [b2z Z.eqb].
      + sil. stp. rewrite Fd. scp_case HE.
        * assert (rd LE (o_mem o5) a 8 = rd LE (o_mem o0) a 8) as EQ by (apply (rd2_eq LE _ _ a 4); auto; lia).
          lin_at (rd LE (o_mem o5) a 8, true). { split; [reflexivity|]. cbn [fst snd]. split; [rewrite EQ; tauto|]. apply (hx_wr _ a new AR4 AR5 f); auto. }
          do 3 (stq; silq). done_q. apply hx_ret_ok; auto. rewrite EQ. apply hx_join_rd; auto.
        * sil. stp; sil. apply weaken. apply IH; cbnx; [lts|auto].
      + sil. commit_at (o_mem o0) (rd LE (o_mem o0) a 8, false). { apply cas_fail_spec; tauto. }
        do 3 (stq; silq). done_q. apply (hx_ret_ok _ _ 0 false); auto. apply hx_join_rd; auto.
    - sil. commit_at (o_mem o0) (rd LE (o_mem o0) a 8, false). { apply cas_fail_spec; tauto. }
      do 3 (stq; silq). done_q. apply (hx_ret_ok _ _ 0 false); auto. apply hx_join_rd; auto. }
  start f r. apply Loop. exact Hin.
Qed.

Lemma hx_sizes n : hx_word n = true -> 0 < n /\ 8 * n <= 32.
Proof. unfold hx_word. intros H. beqs. repeat (destruct H as [H|H]; beqs); lia. Qed.
Lemma hx_sub_n n : hx_sub n = true -> n = 1 \/ n = 2.
Proof. unfold hx_sub. intros; beqs; destruct H; beqs; lia. Qed.
Theorem hx_load_atomic n o a f : hx_load n o a = Impl f -> atomic_fx LE f (load_spec LE a n).
Proof.
  unfold hx_load. disp.
  - destruct (hx_sizes n E). apply hx_load_fn_atomic; auto.
  - beqs. subst n. apply hx_load64_fn_atomic.
Qed.
Theorem hx_store_atomic n o a v f : hx_store n o a v = Impl f -> atomic_fx LE f (store_spec LE a n v).
Proof.
  unfold hx_store. disp.
  - destruct (hx_sizes n E). apply hx_store_fn_atomic; auto.
  - beqs. subst n. apply hx_store64_fn_atomic.
Qed.
Theorem hx_swap_atomic n o a v f : 0 <= a < 2 ^ 32 -> a mod n = 0 -> 0 <= v < 2 ^ (8 * n) ->
  hx_swap n o a v = Impl f -> atomic_fx LE f (swap_spec LE a n v).
Proof.
  intros Ha Hal Hv. unfold hx_swap. disp.
  - apply hx_swap_sub_fn_atomic; auto using hx_sub_n.
  - beqs. subst n. apply hx_swap_fn_atomic.
  - beqs. subst n. apply hx_swap64_fn_atomic.
Qed.
Theorem hx_cas_atomic n os of a old new f : 0 <= a < 2 ^ 32 -> a mod n = 0 -> 0 <= old < 2 ^ (8 * n) -> 0 <= new < 2 ^ (8 * n) ->
  hx_cas n os of a old new = Impl f -> atomic_fx LE f (cas_spec LE a n old new).
Proof.
  intros Ha Hal Ho Hv. unfold hx_cas. disp.
  - apply hx_cas_sub_fn_atomic; auto using hx_sub_n.
  - beqs. subst n. apply hx_cas_fn_atomic; auto.
  - beqs. subst n. apply hx_cas64_fn_atomic.
Qed.
