From Verif Require Import Sym Arch_x86 Fields UtilsProofs.

Ltac unfa := unfold ea, x_ld, x_st, x_xchg, x_cmpxchg_i, sete_cl, x_cmpxchg2, jne, xchg_rr, x_movq_ld, x_movlps_ld.

(* x87 round trip: FISTP (FILD v) = v for every 64-bit pattern *)
Lemma fild_fist v : 0 <= v < 2 ^ 64 -> fist_val (fild_val v) = v.
Proof.
  intros Hv. unfold fild_val. set (x := s64 v).
  assert (- 2 ^ 63 <= x < 2 ^ 63 /\ low 64 x = v) as [Hx Hl].
  { unfold x, s64. unfold low. change (2 ^ 64) with 18446744073709551616 in *. change (2 ^ 63) with 9223372036854775808.
    destruct (Z.ltb_spec v 9223372036854775808).
    - split; [lia|]. apply Z.mod_small; lia.
    - split; [lia|]. rewrite Zminus_mod, Z_mod_same_full, Z.sub_0_r, Z.mod_mod by lia. apply Z.mod_small; lia. }
  destruct (Z.eqb_spec x 0) as [E|E]. { rewrite E in Hl. rewrite <- Hl. reflexivity. }
  set (lg := Z.log2 (Z.abs x)). set (sg := if x <? 0 then 1 else 0).
  assert (0 <= lg <= 63) as Hlg.
  { split; [apply Z.log2_nonneg|]. unfold lg. change 63 with (Z.log2 (2 ^ 63)). apply Z.log2_le_mono. lia. }
  pose proof (Z.log2_spec (Z.abs x) ltac:(lia)) as [L1 L2]. fold lg in L1, L2. rewrite Z.pow_succ_r in L2 by lia.
  set (mant := Z.shiftl (Z.abs x) (63 - lg)).
  assert (0 <= mant < 2 ^ 64) as Hm.
  { unfold mant. rewrite Z.shiftl_mul_pow2 by lia. split; [nia|].
    replace (2 ^ 64) with ((2 * 2 ^ lg) * 2 ^ (63 - lg)) by (rewrite <- Z.mul_assoc, <- Z.pow_add_r by lia; rewrite <- Z.pow_succ_r by lia; f_equal; lia).
    apply Z.mul_lt_mono_pos_r; lia. }
  assert (0 <= sg <= 1) as Hsg by (unfold sg; destruct (x <? 0); lia).
  unfold fist_val. cbv zeta.
  assert (sg * 2 ^ 79 + (lg + 16383) * 2 ^ 64 + mant = (mant + (lg + 16383) * 2 ^ 64) + sg * 2 ^ 79) as -> by ring.
  assert (0 <= mant + (lg + 16383) * 2 ^ 64 < 2 ^ 79) as Hq.
  { change (2 ^ 79) with (32768 * 2 ^ 64). nia. }
  destruct (split_join 79 _ sg ltac:(lia) Hq) as [Q1 Q2]. rewrite Q1, Q2.
  destruct (split_join 64 mant (lg + 16383) ltac:(lia) Hm) as [R1 R2]. rewrite R2.
  assert (low 64 (mant + (lg + 16383) * 2 ^ 64 + sg * 2 ^ 79) = mant) as ->.
  { change (2 ^ 79) with (32768 * 2 ^ 64). replace (mant + (lg + 16383) * 2 ^ 64 + sg * (32768 * 2 ^ 64)) with (mant + ((lg + 16383) + sg * 32768) * 2 ^ 64) by ring.
    apply split_join; auto; lia. }
  destruct (Z.eqb_spec (lg + 16383) 0); [lia|].
  replace (63 - (lg + 16383 - 16383)) with (63 - lg) by lia.
  unfold mant. rewrite Z.shiftr_shiftl_l by lia. rewrite Z.sub_diag, Z.shiftl_0_r.
  rewrite <- Hl. unfold sg. destruct (Z.ltb_spec x 0); cbn [Z.eqb Pos.eqb]; f_equal; lia.
Qed.

Lemma sete_low z cx : 0 <= z < 256 -> low 8 (z + Z.shiftl (Z.shiftr cx 8) 8) = z.
Proof. intros H. rewrite Z.shiftl_mul_pow2 by lia. apply split_join; auto; lia. Qed.

Lemma x_load_fn_atomic c n a : 0 < n -> 8 * n <= x_w c -> atomic_fx LE (x_load_fn c n a) (load_spec LE a n).
Proof.
  intros Hn Hw. unfold x_load_fn. unfa. start f r. destruct Hin as [_ Ha].
  stp; sil. stp. rewrite Ha, Z.add_0_r. lin_at (rd LE (o_mem o0) a n); [apply load_spec_refl|].
  done_q. rewrite junk_hi_low by lia. rewrite rd_low by (auto; lia). reflexivity.
Qed.
Lemma x_store_fn_atomic c n a v t : 0 < n -> 8 * n <= x_w c -> atomic_fx LE (x_store_fn c n a v t) (store_spec LE a n v).
Proof.
  intros Hn Hw. unfold x_store_fn. destruct t; unfa; start f r; destruct Hin as [[_ Ha] Hv].
  - stp; sil. stp. rewrite Ha, Z.add_0_r. lin_at tt; [eapply wr_opnd; eauto; lia|]. done_q. reflexivity.
  - stp; sil. stp. rewrite Ha. lin_at tt; [eapply wr_opnd; eauto; lia|]. done_q. reflexivity.
Qed.
Lemma x_swap_fn_atomic c n a v : 0 < n -> 8 * n <= x_w c -> atomic_fx LE (x_swap_fn c n a v) (swap_spec LE a n v).
Proof.
  intros Hn Hw. unfold x_swap_fn. unfa. start f r. destruct Hin as [[_ Ha] Hv].
  stp; sil. stp. rewrite Ha. lin_at (rd LE (o_mem o0) a n); [split; [reflexivity|eapply wr_opnd; eauto; lia]|].
  done_q. rewrite junk_hi_low by lia. rewrite rd_low by (auto; lia). reflexivity.
Qed.
Lemma x_cas_fn_atomic c n a old new : 0 < n -> 8 * n <= x_w c -> atomic_fx LE (x_cas_fn c n a old new) (cas_spec LE a n old new).
Proof.
  intros Hn Hw. unfold x_cas_fn. unfa. start f r. destruct Hin as ([_ Ha] & [_ Ho] & Hv).
  stp; sil. stp. rewrite Ha, Ho. br_case HE; cbn [b2z]; cbnx.
  - lin_at (rd LE (o_mem o0) a n, true). { split; [reflexivity|]. cbn [fst snd]. split; [auto|]. eapply wr_opnd; eauto; lia. }
    stq. silq. done_q. rewrite sete_low by lia. apply (ret_cas_ok n _ _ true). rewrite junk_hi_low by lia. apply rd_low; auto; lia.
  - lin_at (rd LE (o_mem o0) a n, false). { apply cas_fail_spec; auto. }
    stq. silq. done_q. rewrite sete_low by lia. apply (ret_cas_ok n _ _ false). rewrite junk_hi_low by lia. apply rd_low; auto; lia.
Qed.

(* ---- double-word: common facts for k = 32 and 64 ---- *)
Lemma x_pair_lo t k v : 0 <= k -> low k (pair_lo t LE k v) + pair_hi t LE k v * 2 ^ k = v.
Proof. intros. unfold pair_lo, pair_hi. cbn [hi_first_sig pair_lo_first Bool.eqb]. rewrite low_low by lia. apply join_low_shiftr; auto. Qed.
Lemma x_pair_join t k v : 0 <= k -> pair_join t LE k (low k v) (Z.shiftr v k) = v.
Proof. intros. unfold pair_join. cbn [hi_first_sig pair_lo_first Bool.eqb]. apply join_low_shiftr; auto. Qed.
Lemma ret_cas2_ok t k lo hi v b : pair_join t LE k lo hi = v -> ret_cas2 t k lo hi (b2z b) = Some (v, b).
Proof. intros <-. destruct b; reflexivity. Qed.
Lemma x_pair_eq t k lo hi v : 0 <= k -> 0 <= lo < 2 ^ k -> low k lo + hi * 2 ^ k = v -> pair_join t LE k lo hi = v.
Proof. intros Hk H <-. unfold pair_join. cbn [hi_first_sig pair_lo_first Bool.eqb]. now rewrite low_id. Qed.

Lemma x_load64_fn_atomic c a : 0 <= a < 2 ^ x_pw c -> atomic_fx LE (x_load64_fn c a) (load_spec LE a 8).
Proof.
  intros Ha. unfold x_load64_fn. destruct (x_load_wide c); unfa; start f r.
  - stp; sil. stp. rewrite Hin, (low_id _ a), Z.add_0_r by auto. lin_at (rd LE (o_mem o0) a 8); [apply load_spec_refl|].
    done_q. apply some_eq. apply (rd_low LE _ a 8); auto; lia.
  - stp; sil. stp. rewrite Hin, (low_id _ a), Z.add_0_r by auto. lin_at (rd LE (o_mem o0) a 8); [apply load_spec_refl|].
    done_q. apply some_eq. change (8 * 8) with 64. rewrite junk_hi_low by lia. apply (rd_low LE _ a 8); auto; lia.
  - stp; sil. stp. rewrite Hin, (low_id _ a), Z.add_0_r by auto. lin_at (rd LE (o_mem o0) a 8); [apply load_spec_refl|].
    stq. silq. stq. silq. done_q. apply some_eq. apply fild_fist. apply (rd_range LE _ a 8); auto; lia.
  - destruct Hin as (F0 & F1 & F2 & F3 & F4). stp; sil. stp. rewrite F0, F1, F2, F3, F4, (low_id _ a) by auto.
    change (low 32 0 + 0 * 2 ^ 32) with 0. lin_at (rd LE (o_mem o0) a 8).
    { split; [reflexivity|]. destruct (Z.eqb_spec 0 (rd LE (o_mem o0) a 8)) as [E|E]; [|apply meq_refl].
      apply meq_sym, wr_rd_same; [auto|lia|]. rewrite <- E. reflexivity. }
    done_q. apply some_eq. destruct (Z.eqb_spec 0 (rd LE (o_mem o0) a 8)) as [E|E]; cbnx.
    + rewrite F3, F4. exact E.
    + apply (x_pair_join A_x86 32); lia.
Qed.
Lemma x_store64_fn_atomic c a v t : x_w c = 32 -> 0 <= a < 2 ^ x_pw c -> 0 <= v < 2 ^ 64 -> atomic_fx LE (x_store64_fn c a v t) (store_spec LE a 8 v).
Proof.
  intros Hw Ha Hv. unfold x_store64_fn. destruct (x_store_wide c); unfa.
  1,2: start f r; destruct Hin as [F1 F2]; stp; sil; stp; rewrite F1, (low_id _ a), Z.add_0_r by auto;
    (lin_at tt; [apply (wr_opnd LE _ a 8 v 128); [lia|auto]|]); stq; silq; done_q; reflexivity.
  - start f r. destruct Hin as [F1 F2]. do 3 (stp; sil). stp. rewrite F1, F2, (low_id _ a), Z.add_0_r, fild_fist by auto.
    lin_at tt; [apply meq_refl|]. stq; silq; done_q; reflexivity.
  - loop_inv 3%nat (fun f : regs => f AR7 = a /\ 0 <= f XA < 2 ^ 32 /\ f XB = pair_lo A_x86 LE 32 v /\ f XC = pair_hi A_x86 LE 32 v) Loop.
    { pose proof Hi as (Fd & Fr & F2 & F3). stp; sil. stp. rewrite Fd, F2, F3, x_pair_lo by lia. br_case HE; cbnx.
      - lin_at tt; [apply meq_refl|]. stq. silq. done_q. reflexivity.
      - sil. stp. sil. apply weaken. apply IH; cbnx; [lts|]. repeat split; auto; apply low_range; lia. }
    start f r. destruct Hin as (Fd & F2 & F3). do 3 (stp; sil). apply weaken. apply Loop; cbnx.
    rewrite Fd, (low_id _ a) by auto. split; [auto|]. split; [|auto]. rewrite Hw. apply (junk_hi_range 32); lia.
Qed.
Lemma x_swap64_fn_atomic c a v : x_w c = 32 -> 0 <= a < 2 ^ x_pw c -> atomic_fx LE (x_swap64_fn c a v) (swap_spec LE a 8 v).
Proof.
  intros Hw Ha. unfold x_swap64_fn. unfa.
  loop_inv 3%nat (fun f : regs => f AR7 = a /\ 0 <= f XA < 2 ^ 32 /\ f XB = pair_lo A_x86 LE 32 v /\ f XC = pair_hi A_x86 LE 32 v) Loop.
  { pose proof Hi as (Fd & Fr & F2 & F3). stp; sil. stp. rewrite Fd, F2, F3, x_pair_lo by lia. br_case HE; cbnx.
    - lin_at (rd LE (o_mem o0) a 8). { split; [reflexivity|apply meq_refl]. }
      stq. silq. done_q. apply some_eq. apply x_pair_eq; auto; lia.
    - sil. stp. sil. apply weaken. apply IH; cbnx; [lts|]. repeat split; auto; apply low_range; lia. }
  start f r. destruct Hin as (Fd & F2 & F3). do 3 (stp; sil). apply weaken. apply Loop; cbnx.
  rewrite Fd, (low_id _ a) by auto. split; [auto|]. split; [|auto]. rewrite Hw. apply (junk_hi_range 32); lia.
Qed.
Lemma x_cas64_fn_atomic c a old new : 0 <= a < 2 ^ x_pw c -> atomic_fx LE (x_cas64_fn c a old new) (cas_spec LE a 8 old new).
Proof.
  intros Ha. unfold x_cas64_fn. unfa. start f r. destruct Hin as (F0 & F1 & F2 & F3 & F4).
  stp; sil. stp. rewrite F0, F1, F2, F3, F4, (low_id _ a) by auto. rewrite !x_pair_lo by lia. br_case HE; cbnx.
  - lin_at (rd LE (o_mem o0) a 8, true). { split; [reflexivity|]. cbn [fst snd]. split; [auto|apply meq_refl]. }
    stq. silq. done_q. rewrite sete_low by lia. apply (ret_cas2_ok _ _ _ _ _ true). rewrite F3, F4, pair_join_split by lia. exact HE.
  - lin_at (rd LE (o_mem o0) a 8, false). { apply cas_fail_spec; auto. }
    stq. silq. done_q. rewrite sete_low by lia. apply (ret_cas2_ok _ _ _ _ _ false). apply x_pair_join; lia.
Qed.

Lemma x_load128_fn_atomic c a : atomic_fx LE (x_load128_fn c a) (load_spec LE a 16).
Proof.
  unfold x_load128_fn. unfa. start f r. destruct Hin as ([_ F0] & F2 & F3 & F4).
  do 3 (stp; sil). stp. rewrite F0, F2, F3, F4, Z.lxor_nilpotent.
    change (low 64 0 + 0 * 2 ^ 64) with 0. lin_at (rd LE (o_mem o2) a 16).
    { split; [reflexivity|]. destruct (Z.eqb_spec 0 (rd LE (o_mem o2) a 16)) as [E|E]; [|apply meq_refl].
      apply meq_sym, wr_rd_same; [auto|lia|]. rewrite <- E. reflexivity. }
    stq. silq. done_q. apply some_eq. destruct (Z.eqb_spec 0 (rd LE (o_mem o2) a 16)) as [E|E]; cbnx.
    + rewrite F3, F4. exact E.
    + apply (x_pair_join A_x86_64 64); lia.
Qed.
Lemma x_store128_fn_atomic c a v : x_w c = 64 -> atomic_fx LE (x_store128_fn c a v) (store_spec LE a 16 v).
Proof.
  intros Hw. unfold x_store128_fn, x_wide128. unfa.
  loop_inv 4%nat (fun f : regs => f AR7 = a /\ f XB = pair_lo A_x86_64 LE 64 v /\ f XC = pair_hi A_x86_64 LE 64 v) Loop.
    { pose proof Hi as (Fd & F2 & F3). stp; sil. stp. rewrite Fd, F2, F3, x_pair_lo by lia. br_case HE; cbnx.
      - lin_at tt; [apply meq_refl|]. stq. silq. stq. silq. done_q. reflexivity.
      - sil. stp. sil. apply weaken. apply IH; cbnx; [lts|]. auto. }
  start f r. destruct Hin as ([_ Fd] & F2 & F3). do 4 (stp; sil). apply weaken. apply Loop; cbnx. auto.
Qed.
Lemma x_swap128_fn_atomic c a v : x_w c = 64 -> atomic_fx LE (x_swap128_fn c a v) (swap_spec LE a 16 v).
Proof.
  intros Hw. unfold x_swap128_fn, x_wide128. unfa.
  loop_inv 4%nat (fun f : regs => f AR7 = a /\ 0 <= f XA < 2 ^ 64 /\ f XB = pair_lo A_x86_64 LE 64 v /\ f XC = pair_hi A_x86_64 LE 64 v) Loop.
  { pose proof Hi as (Fd & Fr & F2 & F3). stp; sil. stp. rewrite Fd, F2, F3, x_pair_lo by lia. br_case HE; cbnx.
    - lin_at (rd LE (o_mem o0) a 16). { split; [reflexivity|apply meq_refl]. }
      stq. silq. stq. silq. done_q. apply some_eq. apply x_pair_eq; auto; lia.
    - sil. stp. sil. apply weaken. apply IH; cbnx; [lts|]. repeat split; auto; apply low_range; lia. }
  start f r. destruct Hin as ([_ Fd] & F2 & F3). do 4 (stp; sil). apply weaken. apply Loop; cbnx.
  split; [auto|]. split; [|auto]. rewrite Hw. apply (junk_hi_range 64); lia.
Qed.
Lemma x_cas128_fn_atomic c a old new : atomic_fx LE (x_cas128_fn c a old new) (cas_spec LE a 16 old new).
Proof.
  unfold x_cas128_fn. unfa. start f r. destruct Hin as ([_ F0] & F1 & F2 & F3 & F4).
  do 2 (stp; sil). stp. rewrite F0, F1, F2, F3, F4. rewrite !x_pair_lo by lia. br_case HE; cbnx.
  - lin_at (rd LE (o_mem o1) a 16, true). { split; [reflexivity|]. cbn [fst snd]. split; [auto|apply meq_refl]. }
    stq. silq. stq. silq. done_q. rewrite sete_low by lia. apply (ret_cas2_ok _ _ _ _ _ true). rewrite F3, F4, pair_join_split by lia. exact HE.
  - lin_at (rd LE (o_mem o1) a 16, false). { apply cas_fail_spec; auto. }
    stq. silq. stq. silq. done_q. rewrite sete_low by lia. apply (ret_cas2_ok _ _ _ _ _ false). apply x_pair_join; lia.
Qed.

(* ---- what the trait implementations do ---- *)
Lemma x_sizes c n : x_wf c -> x_word c n = true -> 0 < n /\ 8 * n <= x_w c.
Proof.
  intros [Hc _] H. unfold x_word in H.
  assert (n = 1 \/ n = 2 \/ n = 4 \/ (n = 8 /\ x_w c = 64)) as X by (beqs; repeat (destruct H as [H|H]; beqs); try tauto; destruct H; beqs; tauto).
  destruct Hc as [[W _]|[W _]]; rewrite W in *; lia.
Qed.
Lemma x_dw_w c n : x_dw c n = true -> n = 8 /\ x_w c = 32.
Proof. unfold x_dw. intros H. beqs. destruct H as [H _]; beqs. destruct H as [H1 H2]; beqs. auto. Qed.
Lemma x_qw_w c n : x_qw c n = true -> n = 16 /\ x_w c = 64.
Proof. unfold x_qw. intros H. beqs. destruct H as [H _]; beqs. destruct H as [H1 H2]; beqs. auto. Qed.
Theorem x_load_atomic c n o a f : x_wf c -> 0 <= a < 2 ^ x_pw c -> x_load c n o a = Impl f -> atomic_fx LE f (load_spec LE a n).
Proof.
  intros Hc Ha. unfold x_load. disp.
  - destruct (x_sizes c n Hc E). apply x_load_fn_atomic; auto.
  - destruct (x_dw_w c n E0) as [-> _]. apply x_load64_fn_atomic; auto.
  - destruct (x_qw_w c n E1) as [-> _]. apply x_load128_fn_atomic.
Qed.
Theorem x_store_atomic c n o a v f : x_wf c -> 0 <= a < 2 ^ x_pw c -> 0 <= v < 2 ^ (8 * n) ->
  x_store c n o a v = Impl f -> atomic_fx LE f (store_spec LE a n v).
Proof.
  intros Hc Ha Hv. unfold x_store.
  destruct (x_word c n) eqn:E; [|destruct (x_dw c n) eqn:E0; [|destruct (x_qw c n) eqn:E1]].
  - destruct (x_sizes c n Hc E). disp. apply x_store_fn_atomic; auto.
  - destruct (x_dw_w c n E0) as [-> Hw].
    destruct (x_store_wide c) eqn:W; disp; apply x_store64_fn_atomic; auto.
  - destruct (x_qw_w c n E1) as [-> Hw]. disp. apply x_store128_fn_atomic; auto.
  - discriminate.
Qed.
Theorem x_swap_atomic c n o a v f : x_wf c -> 0 <= a < 2 ^ x_pw c ->
  x_swap c n o a v = Impl f -> atomic_fx LE f (swap_spec LE a n v).
Proof.
  intros Hc Ha. unfold x_swap. disp.
  - destruct (x_sizes c n Hc E). apply x_swap_fn_atomic; auto.
  - destruct (x_dw_w c n E0) as [-> Hw]. apply x_swap64_fn_atomic; auto.
  - destruct (x_qw_w c n E1) as [-> Hw]. apply x_swap128_fn_atomic; auto.
Qed.
Theorem x_cas_atomic c n os of a old new f : x_wf c -> 0 <= a < 2 ^ x_pw c ->
  x_cas c n os of a old new = Impl f -> atomic_fx LE f (cas_spec LE a n old new).
Proof.
  intros Hc Ha. unfold x_cas. disp.
  - destruct (x_sizes c n Hc E). apply x_cas_fn_atomic; auto.
  - destruct (x_dw_w c n E0) as [-> Hw]. apply x_cas64_fn_atomic; auto.
  - destruct (x_qw_w c n E1) as [-> Hw]. apply x_cas128_fn_atomic; auto.
Qed.
