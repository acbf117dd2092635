From Verif Require Import P_legacy Arch_riscvl P_riscv.
Ltac unfa := unfold sllw, srlw, seqz, rv_l, rv_s, rv_lr, rv_sc, rv_amoswap; unfl.

Lemma rvl_load_fn_atomic c b n a t : rv_wf c -> 0 < n -> 8 * n <= rv_w c -> atomic_fx LE (rvl_load_fn c b n a t) (load_spec LE a n).
Proof.
  intros Hc Hn Hw. destruct t as [acquire release]. unfold rvl_load_fn. unfa.
  start f r. destruct Hin as [Fs Fo]. stp. sil.
  stp. lin_at (rd LE (o_mem o0) a n). { split; [reflexivity|apply meq_refl]. }
  stq. silq. stq. priv Fo. silq. apply exit_Q; [reflexivity|]. cbnx. rewrite Fs, Z.add_0_r, sext_low by lia. now rewrite (rd_low _ _ _ _ Ho0) by lia.
Qed.
Lemma rvl_store_fn_atomic c b n a v t : rv_wf c -> 0 < n -> 8 * n <= rv_w c -> 0 <= v < 2 ^ (8 * n) -> atomic_fx LE (rvl_store_fn c b n a v t) (store_spec LE a n v).
Proof.
  intros Hc Hn Hw Hv. destruct t as [acquire release]. unfold rvl_store_fn. unfa.
  start f r. destruct Hin as [Fd Fv]. stp. priv Fv. sil. stp. sil.
  stp. lin_at tt. { unfold store_spec. rewrite Fd, Z.add_0_r. apply wr_sext; lia. }
  stq. silq. apply exit_Q; reflexivity.
Qed.
Lemma rvl_swap_fn_atomic c b n a v t : rv_wf c -> 0 < n -> 8 * n <= rv_w c -> 0 <= v < 2 ^ (8 * n) -> atomic_fx LE (rvl_swap_fn c b n a v t) (swap_spec LE a n v).
Proof.
  intros Hc Hn Hw Hv. unfold rvl_swap_fn. unfa.
  start f r. destruct Hin as (Fd & Fv & Fo). stp. priv Fv. sil.
  stp. lin_at (rd LE (o_mem o0) a n).
  { split; [reflexivity|]. rewrite Fd. apply wr_sext; lia. }
  stq. priv Fo. silq. apply exit_Q; [reflexivity|]. cbnx. rewrite Fd, sext_low by lia. now rewrite (rd_low _ _ _ _ Ho0) by lia.
Qed.
Lemma rvl_cas_fn_atomic c b n a old new t : rv_wf c -> 0 < n -> 8 * n <= rv_w c -> 0 <= old < 2 ^ (8 * n) -> 0 <= new < 2 ^ (8 * n) ->
  atomic_fx LE (rvl_cas_fn c b n a old new t) (cas_spec LE a n old new).
Proof.
  intros Hc Hn Hw Vo Vn. destruct t as [acquire release]. unfold rvl_cas_fn. cbv zeta. unfa.
  set (w := rv_w c) in *.
  loop_inv 2%nat (fun f : regs => f Dst = a /\ f Old = sext (8 * n) w old /\ f New = sext (8 * n) w new /\ f OutP = b_out b) Loop.
  { destruct Hi as (Fd & Fo & Fn & Fp). stp. sil. stp. rewrite Fd. sil.
    assert (forall V, 0 <= V < 2 ^ (8 * n) -> (sext (8 * n) w V = f Old <-> V = old)) as CMP.
    { intros V HV. rewrite Fo. split; [intros X|now intros ->]. apply (f_equal (low (8 * n))) in X. rewrite !sext_low in X by lia. now rewrite !low_id in X by auto. }
    pose proof (rd_range LE (o_mem o0) a n Ho0 ltac:(lia)) as HR.
    stp. br_case H.
    - sil. stp. rewrite Fd. sc_case HE.
      + lin_at (rd LE (o_mem o2) a n, true).
        { split; [reflexivity|]. cbn. split; [rewrite HE; apply CMP; auto|]. rewrite Fn. apply wr_sext; lia. }
        stq. br_case H0; [|lia]. silq. stq. silq. stq. silq. stq. silq. stq. priv Fp. silq. done_q. rewrite H, Z.lxor_nilpotent.
        change (b2z (0 =? 0)) with (b2z true). apply ret_cas_l_ok. rewrite <- H, sext_low by lia. rewrite HE. apply low_id; auto.
      + sil. stp. br_case H0; [lia|]. sil. apply weaken. apply IH; [lts|]. cbnx. auto.
    - sil. apply (commit _ _ _ _ _ _ (o_mem o0) (rd LE (o_mem o0) a n, false)).
      { cbn; tauto. } { apply cas_fail_spec. rewrite <- CMP by auto. auto. }
      stq. silq. stq. silq. stq. silq. stq. priv Fp. silq. done_q. destruct (Z.eqb_spec (Z.lxor (sext (8*n) w (rd LE (o_mem o0) a n)) (f Old)) 0) as [X|X].
      + apply Z.lxor_eq in X. contradiction.
      + apply ret_cas_l_ok. rewrite sext_low by lia. apply low_id; auto. }
  start f r. destruct Hin as (Fd & Fo & Fn & Fp). stp. priv Fo. sil. stp. priv Fn. sil. apply weaken. apply Loop. cbnx. auto.
Qed.
Lemma rvl_swap_sub_fn_atomic c b0 n a v t : rv_wf c -> n = 1 \/ n = 2 ->
  0 <= a < 2 ^ rv_uw c -> a mod n = 0 -> 0 <= v < 2 ^ (8 * n) ->
  atomic_fx LE (rvl_swap_sub_fn c b0 n a v t) (swap_spec LE a n v).
Proof.
  intros Hc Hn Ha Hal Hv. destruct t as [acquire release]. unfold rvl_swap_sub_fn.
  destruct (create_sub_word_mask_values (rv_arch c) LE (rv_uw c) (rv_w c) n a) as [[dst shift] mask] eqn:E.
  destruct (rv_wf_w c Hc) as [Hw Hu].
  apply sub_word_ok in E; try lia; [|unfold rv_arch; destruct (rv_w c =? 32); reflexivity].
  cbv zeta. unfa. destruct E as (Ed & _ & _ & Hin_w & Hs & _ & Hm).
  replace (SHIFT_MASK (rv_arch c)) with false in Hm by (unfold rv_arch; destruct (rv_w c =? 32); reflexivity).
  set (s := field_pos LE n a) in *. pose proof (in_word_range _ _ _ _ _ _ Hin_w) as (Hs0 & Hs1 & Hn0).
  assert (HV : low 32 v = v) by (apply low_id; destruct Hn; subst n; cbn in Hv |- *; lia).
  set (w := rv_w c) in *.
  set (M := sx_sll w mask shift).
  loop_inv 3%nat (fun f : regs => f Dst = dst /\ f Shift = shift /\ f Mask = M /\ f Val = sx_sll w v shift /\ f OutP = b_out b0) Loop.
  { destruct Hi as (Fd & Fs & Fm & Fv & Fp).
    go. stp. rewrite Fd. sc_case HE.
    - lin_at (rd LE (o_mem o5) a n).
      { split; [reflexivity|]. eapply wr_field; eauto.
        rewrite Fv, Fm. apply merge_xor_field.
        - intros b Hb. rewrite sext_bits by lia. destruct (Z.ltb_spec b (8*4)); [|lia]. rewrite HE. reflexivity.
        - intros b Hb. unfold M. rewrite sx_sll_bits by lia. rewrite Hm, Hs. apply shl_mask_bits; lia.
        - intros b Hb Fb. rewrite sx_sll_bits, Hs by lia. rewrite (shl_val_bits v v 32 s n) by (auto; lia).
          rewrite Fb. reflexivity. }
      stq. br_case H0; [|lia]. silq. stq. silq. stq. priv Fp. silq. done_q. f_equal. rewrite Fs.
      change (8 * 4) with 32. rewrite sx_srl_field; try lia.
      2:{ change 32 with (8 * 4). apply rd_range; auto; lia. }
      rewrite Hs, <- HE. apply (rd_field LE 4 dst a n s); auto.
    - sil. stp. br_case H0; [lia|]. sil. apply weaken. apply IH; [lts|]. cbnx. auto. }
  start f r. destruct Hin as (Fd & Fs & Fm & Fv & Fp).
  stp. priv Fv. sil. stp. sil. stp. sil. apply weaken. apply Loop. cbnx. rewrite Fm, Fs. auto.
Qed.
Lemma rvl_cas_sub_fn_atomic c b0 n a old new t : rv_wf c -> n = 1 \/ n = 2 ->
  0 <= a < 2 ^ rv_uw c -> a mod n = 0 -> 0 <= old < 2 ^ (8 * n) -> 0 <= new < 2 ^ (8 * n) ->
  atomic_fx LE (rvl_cas_sub_fn c b0 n a old new t) (cas_spec LE a n old new).
Proof.
  intros Hc Hn Ha Hal Hold Hnew. destruct t as [acquire release]. unfold rvl_cas_sub_fn.
  destruct (create_sub_word_mask_values (rv_arch c) LE (rv_uw c) (rv_w c) n a) as [[dst shift] mask] eqn:E.
  destruct (rv_wf_w c Hc) as [Hw Hu].
  apply sub_word_ok in E; try lia; [|unfold rv_arch; destruct (rv_w c =? 32); reflexivity].
  cbv zeta. unfa. destruct E as (Ed & _ & _ & Hin_w & Hs & _ & Hm).
  replace (SHIFT_MASK (rv_arch c)) with false in Hm by (unfold rv_arch; destruct (rv_w c =? 32); reflexivity).
  set (s := field_pos LE n a) in *. pose proof (in_word_range _ _ _ _ _ _ Hin_w) as (Hs0 & Hs1 & Hn0).
  assert (HO : low 32 old = old) by (apply low_id; destruct Hn; subst n; cbn in Hold |- *; lia).
  assert (HV : low 32 new = new) by (apply low_id; destruct Hn; subst n; cbn in Hnew |- *; lia).
  set (w := rv_w c) in *.
  set (M := sx_sll w mask shift).
  loop_inv 5%nat (fun f : regs => f Dst = dst /\ f Shift = shift /\ f Mask = M /\ f Old = sx_sll w old shift /\ f New = sx_sll w new shift /\ f OutP = b_out b0) Loop.
  { destruct Hi as (Fd & Fs & Fm & Fo & Fv & Fp).
    assert (forall m, wf_mem m -> 0 <= rd LE m dst 4 < 2 ^ 32) as HR
      by (intros; change 32 with (8 * 4); apply rd_range; auto; lia).
    assert (forall m, wf_mem m -> (Z.land (sext 32 w (rd LE m dst 4)) M = sx_sll w old shift <-> rd LE m a n = old)) as CMP.
    { intros m Hm'. rewrite <- (rd_field LE 4 dst a n s m) by auto. apply sx_sub_cmp; auto; lia. }
    assert (forall m, wf_mem m -> low (8 * n) (sx_srl w (sext 32 w (rd LE m dst 4)) shift) = rd LE m a n) as OUT.
    { intros m Hm'. rewrite sx_srl_field by (auto; lia). rewrite Hs. apply rd_field; auto. }
    go. stp. rewrite Fd, Fm, Fo. change (8 * 4) with 32. br_case H.
    - sil. go. stp. rewrite Fd. sc_case HE.
      + apply CMP in H; auto. 
        assert (rd LE (o_mem o6) a n = rd LE (o_mem o0) a n) as EQ.
        { rewrite <- !(rd_field LE 4 dst a n s) by auto. now rewrite HE. }
        lin_at (rd LE (o_mem o0) a n, true).
        { split; [auto|]. cbn [fst snd]. split; [congruence|]. eapply wr_field; eauto.
          rewrite Fv, Fm. apply merge_xor_field'.
          - intros b Hb. change (8 * 4) with 32. rewrite sext_bits by lia. destruct (Z.ltb_spec b 32); [|lia]. rewrite HE. reflexivity.
          - intros b Hb. unfold M. rewrite sx_sll_bits by lia. rewrite Hm, Hs. apply shl_mask_bits; lia.
          - intros b Hb Fb. rewrite sx_sll_bits, Hs by lia. rewrite (shl_val_bits new new 32 s n) by (auto; lia).
            rewrite Fb. reflexivity. }
        stq. br_case H0; [|lia]. silq. do 5 (stq; silq). stq. priv Fp. silq. done_q. rewrite Fs, Fm, Fo. change (8 * 4) with 32.
        assert (Z.land (sext 32 w (rd LE (o_mem o0) dst 4)) M = sx_sll w old shift) as -> by (apply CMP; auto).
        rewrite Z.lxor_nilpotent. apply (ret_cas_l_ok _ _ true). auto.
      + sil. stp. br_case H0; [lia|]. sil. apply weaken. apply IH; [lts|]. cbnx. auto 10.
    - sil. apply (commit _ _ _ _ _ _ (o_mem o0) (rd LE (o_mem o0) a n, false)).
      { cbn; tauto. } { apply cas_fail_spec. rewrite <- CMP by auto. auto. }
      do 5 (stq; silq). stq. priv Fp. silq. done_q. rewrite Fs, Fm, Fo. change (8 * 4) with 32.
      match goal with |- context [b2z ?b] => replace b with false end.
      2:{ symmetry. apply Z.eqb_neq. intros X. apply Z.lxor_eq in X. auto. }
      apply (ret_cas_l_ok _ _ false). auto. }
  start f r. destruct Hin as (Fd & Fs & Fm & Fo & Fn & Fp).
  stp. priv Fo. sil. stp. priv Fn. sil. do 3 (stp; sil). apply weaken; apply Loop. cbnx. rewrite Fm, Fs; auto 10.
Qed.

(* ---- what the trait implementations do: every size, ordering and configuration ---- *)
Theorem rvl_load_atomic c b n o a f : rv_wf c -> rvl_load c b n o a = Impl f -> atomic_fx LE f (load_spec LE a n).
Proof.
  intros Hc. unfold rvl_load. destruct (rv_word c n || rv_subword n) eqn:E; [|discriminate].
  apply rv_sizes in E; auto. unfold with_table. destruct (rv_load_tbl o); [|discriminate]. intros X; inversion X.
  apply rvl_load_fn_atomic; tauto.
Qed.
Theorem rvl_store_atomic c b n o a v f : rv_wf c -> 0 <= v < 2 ^ (8 * n) -> rvl_store c b n o a v = Impl f -> atomic_fx LE f (store_spec LE a n v).
Proof.
  intros Hc Hv. unfold rvl_store. destruct (rv_word c n || rv_subword n) eqn:E; [|discriminate].
  apply rv_sizes in E; auto. unfold with_table. destruct (rv_store_tbl o); [|discriminate]. intros X; inversion X.
  apply rvl_store_fn_atomic; tauto.
Qed.
Theorem rvl_swap_atomic c b n o a v f : rv_wf c -> 0 <= a < 2 ^ rv_uw c -> a mod n = 0 -> 0 <= v < 2 ^ (8 * n) ->
  rvl_swap c b n o a v = Impl f -> atomic_fx LE f (swap_spec LE a n v).
Proof.
  intros Hc Ha Hal Hv. unfold rvl_swap. pose proof (rv_sizes c n Hc) as S. destruct (rv_a c); [|discriminate].
  destruct (rv_word c n) eqn:W; [|destruct (rv_subword n) eqn:SW; [|discriminate]]; cbn in S.
  - unfold with_table. destruct (rv_amo_tbl o); [|discriminate]. intros X; inversion X. apply rvl_swap_fn_atomic; tauto.
  - apply rv_subword_n in SW. unfold with_table. destruct (rv_lrsc_tbl o); [|discriminate].
    intros X; inversion X. apply rvl_swap_sub_fn_atomic; auto.
Qed.
Theorem rvl_cas_atomic c b n os of a old new f : rv_wf c -> 0 <= a < 2 ^ rv_uw c -> a mod n = 0 ->
  0 <= old < 2 ^ (8 * n) -> 0 <= new < 2 ^ (8 * n) ->
  rvl_cas c b n os of a old new = Impl f -> atomic_fx LE f (cas_spec LE a n old new).
Proof.
  intros Hc Ha Hal Ho Hn. unfold rvl_cas. destruct (rv_a c); [|discriminate].
  pose proof (rv_sizes c n Hc) as S.
  destruct (rv_word c n) eqn:W; [|destruct (rv_subword n) eqn:SW; [|discriminate]]; cbn in S; unfold with_table;
    destruct (rv_lrsc_tbl _) as [t|]; try discriminate; intros X; inversion X; subst f; clear X.
  - apply rvl_cas_fn_atomic; tauto.
  - apply rv_subword_n in SW. apply rvl_cas_sub_fn_atomic; auto.
Qed.
