From Verif Require Import P_legacy Arch_loongarchl P_loongarch.
Ltac unfa := unfold sllw, srlw, la_ld, la_st, la_ll, la_sc, la_amswap, la_amswap0, addiw0, sltui1; unfl.

Lemma lal_load_fn_atomic b n a t : 0 < n -> 8 * n <= 64 -> atomic_fx LE (lal_load_fn b n a t) (load_spec LE a n).
Proof.
  intros Hn Hw. unfold lal_load_fn. unfa. start f r. destruct Hin as [Fs Fo]. stp. lin_at (rd LE (o_mem o) a n). { split; [reflexivity|apply meq_refl]. }
  stq. silq. stq. priv Fo. silq. done_q. f_equal. rewrite Fs, Z.add_0_r. apply rd_sext; auto; lia.
Qed.
Lemma lal_store_fn_atomic b n a v t : 0 < n -> 8 * n <= 64 -> atomic_fx LE (lal_store_fn b n a v t) (store_spec LE a n v).
Proof.
  intros Hn Hw. unfold lal_store_fn. unfa. start f r. destruct Hin as [Ha Hv]. stp. priv Hv. sil.
  destruct t; stp; lin_at tt; try (done_q; reflexivity); unfold store_spec; rewrite Ha, ?Z.add_0_r; apply wr_sext; lia.
Qed.
Lemma lal_store_sub_fn_atomic b n a v t : 0 < n -> 8 * n <= 64 -> atomic_fx LE (lal_store_sub_fn b n a v t) (store_spec LE a n v).
Proof.
  intros Hn Hw. destruct t as [x y]. unfold lal_store_sub_fn. unfa. start f r. destruct Hin as [Ha Hv]. stp. priv Hv. sil.
  stp. sil. stp. lin_at tt. { unfold store_spec; rewrite Ha, ?Z.add_0_r; apply wr_sext; lia. }
  goq. done_q. reflexivity.
Qed.
Lemma lal_swap_fn_atomic b n a v : 0 < n -> 8 * n <= 64 -> atomic_fx LE (lal_swap_fn b n a v) (swap_spec LE a n v).
Proof.
  intros Hn Hw. unfold lal_swap_fn. unfa. start f r. destruct Hin as (Ha & Hv & Fo). stp. priv Hv. sil.
  stp. lin_at (rd LE (o_mem o0) a n).
  { split; [reflexivity|]. rewrite Ha; apply wr_sext; lia. }
  stq. priv Fo. silq. done_q. f_equal. rewrite Ha. apply rd_sext; auto; lia.
Qed.
Lemma lal_cas_fn_atomic b n a old new t : 0 < n -> 8 * n <= 64 -> 0 <= old < 2 ^ (8 * n) -> 0 <= new < 2 ^ (8 * n) ->
  atomic_fx LE (lal_cas_fn b n a old new t) (cas_spec LE a n old new).
Proof.
  intros Hn Hw Vo Vn. unfold lal_cas_fn. unfa.
  loop_inv 2%nat (fun f : regs => f Dst = a /\ f Old = sext (8 * n) 64 old /\ f New = sext (8 * n) 64 new /\ f OutP = b_out b) Loop.
  { destruct Hi as (Fd & Fo & Fn & Fp).
    go. stp. rewrite Fd.
    pose proof (rd_range LE (o_mem o0) a n Ho0 ltac:(lia)) as HR.
    assert (sext (8 * n) 64 (rd LE (o_mem o0) a n) = f Old <-> rd LE (o_mem o0) a n = old) as CMP.
    { apply sx_cmp; auto; rewrite Fo; [apply sext_idem; lia|]. rewrite sext_low by lia. apply low_id; auto. }
    br_case H.
    - sil. stp. sil. stp. rewrite Fd. sc_case HE.
      + lin_at (rd LE (o_mem o3) a n, true).
        { split; [reflexivity|]. cbn [fst snd]. split; [rewrite HE; apply CMP; auto|]. rewrite Fn. apply wr_sext; lia. }
        stq. br_case H0; [lia|]. silq. stq. silq. stq. silq. stq. priv Fp. silq. stq. silq. stq. silq. done_q.
        rewrite H, Z.lxor_nilpotent. apply (ret_cas_l_ok _ _ true). rewrite HE, <- H. apply rd_sext; auto; lia.
      + sil. stp. br_case H0; [|lia]. sil. apply weaken. apply IH; [lts|]. cbnx. auto.
    - sil. commit_at (o_mem o0) (rd LE (o_mem o0) a n, false).
      { apply cas_fail_spec. rewrite <- CMP. auto. }
      do 3 (stq; silq). stq. priv Fp. silq. do 2 (stq; silq). done_q.
      match goal with |- context [b2z ?b] => replace b with false end.
      2:{ symmetry. apply Z.eqb_neq. intros X. apply Z.lxor_eq in X. auto. }
      apply (ret_cas_l_ok _ _ false). apply rd_sext; auto; lia. }
  start f r. destruct Hin as (Fd & Fo & Fn & Fp). stp. priv Fo. sil. stp. priv Fn. sil. apply weaken. apply Loop. cbnx. auto.
Qed.
Lemma sx_sll_idem v s : sext 32 64 (sx_sll 64 v s) = sx_sll 64 v s.
Proof. apply sext_idem; lia. Qed.
Lemma sx_land W m s : sext 32 64 (Z.land (sext 32 64 W) (sx_sll 64 m s)) = Z.land (sext 32 64 W) (sx_sll 64 m s).
Proof. unfold sx_sll. rewrite sext_land by lia. apply sext_idem; lia. Qed.
Lemma lal_swap_sub_fn_atomic c b0 n a v : la_wf c -> n = 1 \/ n = 2 ->
  0 <= a < 2 ^ la_uw c -> a mod n = 0 -> 0 <= v < 2 ^ (8 * n) ->
  atomic_fx LE (lal_swap_sub_fn c b0 n a v) (swap_spec LE a n v).
Proof.
  intros Hc Hn Ha Hal Hv. unfold lal_swap_sub_fn. pose proof (la_wf_uw c Hc) as Hu.
  destruct (create_sub_word_mask_values A_loongarch64 LE (la_uw c) 64 n a) as [[dst shift] mask] eqn:E.
  apply sub_word_ok in E; try lia; [|reflexivity].
  unfa. destruct E as (Ed & _ & _ & Hin_w & Hs & _ & Hm). cbn [SHIFT_MASK negb] in Hm.
  set (s := field_pos LE n a) in *. pose proof (in_word_range _ _ _ _ _ _ Hin_w) as (Hs0 & Hs1 & Hn0).
  assert (HV : low 32 v = v) by (apply low_id; destruct Hn; subst n; cbn in Hv |- *; lia).
  set (M := sx_sll 64 mask shift).
  loop_inv 5%nat (fun f : regs => f Dst = dst /\ f Shift = shift /\ f Mask = M /\ f Val = sx_sll 64 v shift /\ f OutP = b_out b0) Loop.
  { pose proof Hi as (Fd & Fs & Fm & Fv & Fp).
    go. stp. rewrite Fd. sc_case HE.
    - lin_at (rd LE (o_mem o5) a n).
      { split; [reflexivity|]. eapply wr_field; eauto.
        rewrite Fv, Fm, sx_sll_idem, (Z.lxor_comm _ (Z.land _ _)). apply merge_xor_field'.
        - intros b Hb. rewrite sext_bits by lia. destruct (Z.ltb_spec b (8*4)); [|lia]. rewrite HE. reflexivity.
        - intros b Hb. unfold M. rewrite sx_sll_bits by lia. rewrite Hm, Hs. apply shl_mask_bits; lia.
        - intros b Hb Fb. rewrite sx_sll_bits, Hs by lia. rewrite (shl_val_bits v v 32 s n) by (auto; lia). rewrite Fb. reflexivity. }
      stq. br_case H0; [lia|]. silq. stq. silq. stq. priv Fp. silq. done_q. f_equal. rewrite Fs.
      change (8 * 4) with 32. rewrite sx_srl_field; try lia.
      2:{ change 32 with (8 * 4). apply rd_range; auto; lia. }
      rewrite Hs, <- HE. apply (rd_field LE 4 dst a n s); auto.
    - sil. stp. br_case H0; [|lia]. sil. apply weaken. apply IH; cbnx; [lts|]. auto. }
  start f r. destruct Hin as (Fd & Fs & Fm & Fv & Fp).
  do 2 (stp; sil). stp. priv Fv. sil. do 2 (stp; sil). apply weaken. apply Loop; cbnx. unfold M. rewrite Fs, Fm, !sx_sll_idem. auto.
Qed.
Lemma lal_cas_sub_fn_atomic c b0 n a old new t : la_wf c -> n = 1 \/ n = 2 ->
  0 <= a < 2 ^ la_uw c -> a mod n = 0 -> 0 <= old < 2 ^ (8 * n) -> 0 <= new < 2 ^ (8 * n) ->
  atomic_fx LE (lal_cas_sub_fn c b0 n a old new t) (cas_spec LE a n old new).
Proof.
  intros Hc Hn Ha Hal Hold Hnew. unfold lal_cas_sub_fn. pose proof (la_wf_uw c Hc) as Hu.
  destruct (create_sub_word_mask_values A_loongarch64 LE (la_uw c) 64 n a) as [[dst shift] mask] eqn:E.
  apply sub_word_ok in E; try lia; [|reflexivity].
  unfa. destruct E as (Ed & _ & _ & Hin_w & Hs & _ & Hm). cbn [SHIFT_MASK negb] in Hm.
  set (s := field_pos LE n a) in *. pose proof (in_word_range _ _ _ _ _ _ Hin_w) as (Hs0 & Hs1 & Hn0).
  assert (HO : low 32 old = old) by (apply low_id; destruct Hn; subst n; cbn in Hold |- *; lia).
  assert (HV : low 32 new = new) by (apply low_id; destruct Hn; subst n; cbn in Hnew |- *; lia).
  set (M := sx_sll 64 mask shift).
  loop_inv 8%nat (fun f : regs => f Dst = dst /\ f Shift = shift /\ f Mask = M /\ f AR6 = M /\ f Old = sx_sll 64 old shift /\ f AR7 = sx_sll 64 old shift /\
     f New = sx_sll 64 new shift /\ f OutP = b_out b0) Loop.
  { pose proof Hi as (Fd & Fs & Fm & Fm6 & Fo & Fo7 & Fv & Fp).
    assert (forall m, wf_mem m -> 0 <= rd LE m dst 4 < 2 ^ 32) as HR
      by (intros; change 32 with (8 * 4); apply rd_range; auto; lia).
    assert (forall m, wf_mem m -> (Z.land (sext 32 64 (rd LE m dst 4)) M = sx_sll 64 old shift <-> rd LE m a n = old)) as CMP.
    { intros m Hm'. rewrite <- (rd_field LE 4 dst a n s m) by auto. apply sx_sub_cmp; auto; lia. }
    assert (forall m, wf_mem m -> low (8 * n) (sx_srl 64 (sext 32 64 (rd LE m dst 4)) shift) = rd LE m a n) as OUT.
    { intros m Hm'. rewrite sx_srl_field by (auto; lia). rewrite Hs. apply rd_field; auto. }
    go. stp. rewrite Fd, Fm6, Fo7. change (8 * 4) with 32. br_case H.
    - sil. go. stp. rewrite Fd. sc_case HE.
      + pose proof H as H'. apply CMP in H; auto.
        pose proof (rd_field_eq LE 4 dst a n s _ _ Hin_w Ho5 Ho0 HE) as EQ.
        lin_at (rd LE (o_mem o0) a n, true).
        { split; [auto|]. cbn [fst snd]. split; [congruence|]. eapply wr_field; eauto.
          rewrite Fv, Fm6. apply merge_or_field.
          - intros b Hb. change (8 * 4) with 32. rewrite sext_bits by lia. destruct (Z.ltb_spec b 32); [|lia]. rewrite HE. reflexivity.
          - intros b Hb. unfold M. rewrite sx_sll_bits by lia. rewrite Hm, Hs. apply shl_mask_bits; lia.
          - intros b Hb. rewrite sx_sll_bits, Hs by lia. apply (shl_val_bits new new 32 s n); auto; lia. }
        stq. br_case H0; [lia|]. silq. do 3 (stq; silq). stq. priv Fp. silq. do 4 (stq; silq). done_q. rewrite Fs, Fo, Fm.
        unfold M. rewrite sx_land. fold M. rewrite H', Z.lxor_nilpotent. apply (ret_cas_l_ok _ _ true). auto.
      + sil. stp. br_case H0; [|lia]. sil. apply weaken. apply IH; cbnx; [lts|]. auto 12.
    - sil. commit_at (o_mem o0) (rd LE (o_mem o0) a n, false).
      { apply cas_fail_spec. rewrite <- CMP by auto. auto. }
      do 4 (stq; silq). stq. priv Fp. silq. do 4 (stq; silq). done_q. rewrite Fs, Fo, Fm. unfold M. rewrite sx_land. fold M.
      match goal with |- context [b2z ?b] => replace b with false end.
      2:{ symmetry. apply Z.eqb_neq. intros X. apply Z.lxor_eq in X. auto. }
      apply (ret_cas_l_ok _ _ false). auto. }
  start f r. destruct Hin as (Fd & Fs & Fm & Fo & Fn & Fp).
  stp. priv Fn. sil. stp. priv Fo. sil. do 6 (stp; sil). apply weaken. apply Loop; cbnx. unfold M. rewrite Fs, Fm, !sx_sll_idem. auto 12.
Qed.

(* ---- what the trait implementations do ---- *)
Theorem lal_load_atomic c b n o a f : lal_load c b n o a = Impl f -> atomic_fx LE f (load_spec LE a n).
Proof. unfold lal_load. disp. apply la_sizes in E. apply lal_load_fn_atomic; tauto. Qed.
Theorem lal_store_atomic c b n o a v f : lal_store c b n o a v = Impl f -> atomic_fx LE f (store_spec LE a n v).
Proof.
  unfold lal_store, la_word, la_subword. disp; beqs.
  - apply lal_store_fn_atomic; lia.
  - apply lal_store_sub_fn_atomic; lia.
Qed.
Theorem lal_swap_atomic c b n o a v f : la_wf c -> 0 <= a < 2 ^ la_uw c -> a mod n = 0 -> 0 <= v < 2 ^ (8 * n) ->
  lal_swap c b n o a v = Impl f -> atomic_fx LE f (swap_spec LE a n v).
Proof.
  intros Hc Ha Hal Hv. unfold lal_swap, la_word, la_subword. disp; beqs.
  - apply lal_swap_fn_atomic; lia.
  - apply lal_swap_sub_fn_atomic; auto; lia.
Qed.
Theorem lal_cas_atomic c b n os of a old new f : la_wf c -> 0 <= a < 2 ^ la_uw c -> a mod n = 0 ->
  0 <= old < 2 ^ (8 * n) -> 0 <= new < 2 ^ (8 * n) ->
  lal_cas c b n os of a old new = Impl f -> atomic_fx LE f (cas_spec LE a n old new).
Proof.
  intros Hc Ha Hal Ho Hn. unfold lal_cas, la_word, la_subword. disp; beqs.
  - apply lal_cas_fn_atomic; auto; lia.
  - apply lal_cas_sub_fn_atomic; auto; lia.
Qed.
