From Verif Require Import P_legacy Arch_x86l P_x86 UtilsProofs.
Ltac unfa := unfold ea, x_ld, x_st, x_xchg, x_cmpxchg_i, sete_cl, x_cmpxchg2, jne, xchg_rr, x_movq_ld, x_movlps_ld, x_pld, x_pst, x_pmovsd, x_pmovlps.
(* an access through a pointer operand hits the buffer *)
Ltac xp H := rewrite ?H, Z.eqb_refl.

Lemma junk_hi_full k v j : 0 <= k -> 0 <= v < 2 ^ k -> junk_hi k k v j = v.
Proof.
  intros Hk Hv. unfold junk_hi. rewrite (low_id k v) by auto. unfold low. rewrite Z.mod_add by (apply Z.pow_nonzero; lia). apply Z.mod_small; auto.
Qed.
Lemma wr_junk e m a n w v j : 0 < n -> 8 * n <= w -> meq (wr e m a n (junk_hi w (8 * n) v j)) (wr e m a n v).
Proof. intros. apply wr_eq_low; [lia|]. apply junk_hi_low; lia. Qed.
Lemma join_low k v : 0 <= k -> low k v + Z.shiftl (Z.shiftr v k) k = v.
Proof. intros. rewrite Z.shiftl_mul_pow2 by lia. apply join_low_shiftr; auto. Qed.
Lemma hi_range k v : 0 <= k -> 0 <= v < 2 ^ (2 * k) -> 0 <= Z.shiftr v k < 2 ^ k.
Proof.
  intros Hk Hv. rewrite Z.shiftr_div_pow2 by lia. split; [apply Z.div_pos; lia|]. apply Z.div_lt_upper_bound; [lia|].
  rewrite <- Z.pow_add_r by lia. replace (k + k) with (2 * k) by lia. lia.
Qed.

Lemma xl_load_fn_atomic c b n a : 0 < n -> 8 * n <= x_w c -> atomic_fx LE (xl_load_fn c b n a) (load_spec LE a n).
Proof.
  intros Hn Hw. unfold xl_load_fn. unfa. start f r. destruct Hin as [[_ Ha] [_ Fo]].
  stp; sil. stp. rewrite Ha, Z.add_0_r. lin_at (rd LE (o_mem o0) a n); [apply load_spec_refl|].
  stq. xp Fo. silq. done_q. rewrite junk_hi_low by lia. rewrite rd_low by (auto; lia). reflexivity.
Qed.
Lemma xl_store_fn_atomic c b n a v t : 0 < n -> 8 * n <= x_w c -> atomic_fx LE (xl_store_fn c b n a v t) (store_spec LE a n v).
Proof.
  intros Hn Hw. unfold xl_store_fn. unfa; start f r; destruct Hin as [[_ Ha] [_ Fv]]. stp. xp Fv. sil. stp. sil.
  destruct t.
  - stp. rewrite Ha, Z.add_0_r. lin_at tt; [apply wr_junk; lia|]. done_q. reflexivity.
  - stp. rewrite Ha. lin_at tt; [apply wr_junk; lia|]. done_q. reflexivity.
Qed.
Lemma xl_swap_fn_atomic c b n a v : 0 < n -> 8 * n <= x_w c -> atomic_fx LE (xl_swap_fn c b n a v) (swap_spec LE a n v).
Proof.
  intros Hn Hw. unfold xl_swap_fn. unfa. start f r. destruct Hin as ([_ Ha] & [_ Fv] & [_ Fo]). stp. xp Fv. sil.
  stp; sil. stp. rewrite Ha. lin_at (rd LE (o_mem o1) a n); [split; [reflexivity|apply wr_junk; lia]|].
  stq. xp Fo. silq. done_q. rewrite junk_hi_low by lia. rewrite rd_low by (auto; lia). reflexivity.
Qed.
Lemma xl_cas_fn_atomic c b n a old new : 0 < n -> 8 * n <= x_w c -> 0 <= old < 2 ^ (8 * n) -> atomic_fx LE (xl_cas_fn c b n a old new) (cas_spec LE a n old new).
Proof.
  intros Hn Hw Vo. unfold xl_cas_fn. unfa. start f r. destruct Hin as ([_ Ha] & [_ Fo] & [_ Fn] & [_ Fp]). stp. xp Fo. sil. stp. xp Fn. sil.
  stp; sil. stp. rewrite Ha, junk_hi_low, (low_id _ old) by (auto; lia). br_case HE; cbn [b2z]; cbnx.
  - lin_at (rd LE (o_mem o2) a n, true). { split; [reflexivity|]. cbn [fst snd]. split; [auto|]. apply wr_junk; lia. }
    stq. silq. stq. xp Fp. silq. done_q. rewrite sete_low by lia. apply (ret_cas_l_ok _ _ true). rewrite junk_hi_low by lia. apply rd_low; auto; lia.
  - lin_at (rd LE (o_mem o2) a n, false). { apply cas_fail_spec; auto. }
    stq. silq. stq. xp Fp. silq. done_q. rewrite sete_low by lia. apply (ret_cas_l_ok _ _ false). rewrite junk_hi_low by lia. apply rd_low; auto; lia.
Qed.
Lemma shuf85_low v : 0 <= v -> low 32 (shuf85 v) = low 32 (Z.shiftr v 32).
Proof.
  intros Hv. unfold shuf85. cbv zeta. set (d := low 32 (Z.shiftr v 32)). rewrite !Z.shiftl_mul_pow2 by lia.
  replace (d + d * 2 ^ 32 + d * 2 ^ 64 + d * 2 ^ 96) with (d + (d + d * 2 ^ 32 + d * 2 ^ 64) * 2 ^ 32) by (change (2 ^ 64) with (2 ^ 32 * 2 ^ 32); change (2 ^ 96) with (2 ^ 32 * 2 ^ 32 * 2 ^ 32); ring).
  apply split_join; [lia|]. apply low_range; lia.
Qed.
Lemma low_shr_low v w : 64 <= w -> low 32 (Z.shiftr (low w v) 32) = low 32 (Z.shiftr v 32).
Proof.
  intros Hw. apply Z.bits_inj'. intros i Hi. rewrite !low_bits, !Z.shiftr_spec, low_bits by lia.
  destruct (Z.ltb_spec i 32); cbn [andb]; [|reflexivity]. destruct (Z.ltb_spec (i + 32) w); [reflexivity|lia].
Qed.
Lemma junk_hi64 v j : low 32 (Z.shiftr (junk_hi 128 64 v j) 32) = low 32 (Z.shiftr v 32).
Proof. rewrite <- (low_shr_low (junk_hi 128 64 v j) 64), junk_hi_low, low_shr_low by lia. reflexivity. Qed.
Lemma rd8_hi e m a : wf_mem m -> low 32 (Z.shiftr (rd e m a 8) 32) = Z.shiftr (rd e m a 8) 32.
Proof. intros H. apply low_id. apply hi_range; [lia|]. apply (rd_range e m a 8 H); lia. Qed.
Lemma xl_load64_fn_atomic c b a : 0 <= a < 2 ^ x_pw c -> 0 <= b_out b < 2 ^ x_pw c -> atomic_fx LE (xl_load64_fn c b a) (load_spec LE a 8).
Proof.
  intros Ha Hb. assert (LB : low (x_pw c) (b_out b) = b_out b) by now apply low_id.
  unfold xl_load64_fn. destruct (xl_wide c); unfa; start f r.
  - destruct Hin as [Fs Fp]. stp; sil. stp. rewrite Fs, (low_id _ a), Z.add_0_r by auto. lin_at (rd LE (o_mem o0) a 8); [apply load_spec_refl|].
    stq. silq. stq. rewrite ?Fp, ?LB, Z.eqb_refl. silq. stq. rewrite ?Fp, ?LB, Z.eqb_refl. silq.
    done_q. apply some_eq. unfold join_out. cbnx. change (8 * 4) with 32. rewrite shuf85_low by (pose proof (rd_range LE (o_mem o0) a 8 Ho0); lia).
    rewrite rd8_hi by auto. apply join_low; lia.
  - destruct Hin as [Fs Fp]. stp; sil. stp; sil. stp. rewrite Fs, (low_id _ a), Z.add_0_r by auto. lin_at (rd LE (o_mem o1) a 8); [apply load_spec_refl|].
    stq. rewrite ?Fp, ?LB, Z.eqb_refl. silq. stq. silq. stq. rewrite ?Fp, ?LB, Z.eqb_refl. silq.
    done_q. apply some_eq. unfold join_out. cbnx. change (8 * 4) with 32. change (8 * 8) with 64. rewrite shuf85_low by (apply junk_hi_range; lia).
    rewrite junk_hi64, junk_hi_low, rd8_hi by (auto; lia). apply join_low; lia.
  - destruct Hin as (F0 & F5 & F1 & F2 & F3 & F4). stp; sil. stp; sil. stp. rewrite F0, F1, F2, F3, F4, (low_id _ a) by auto.
    change (low 32 0 + 0 * 2 ^ 32) with 0. lin_at (rd LE (o_mem o1) a 8).
    { split; [reflexivity|]. destruct (Z.eqb_spec 0 (rd LE (o_mem o1) a 8)) as [E|E]; [|apply meq_refl].
      apply meq_sym, wr_rd_same; [auto|lia|]. rewrite <- E. reflexivity. }
    destruct (Z.eqb_spec 0 (rd LE (o_mem o1) a 8)) as [E|E]; cbnx.
    + stq. rewrite ?F5, ?LB, Z.eqb_refl. silq. stq. rewrite ?F5, ?LB, Z.eqb_refl. silq. stq. silq. done_q. apply some_eq. unfold join_out. cbnx. rewrite F3, F4. exact E.
    + stq. rewrite ?F5, ?LB, Z.eqb_refl. silq. stq. rewrite ?F5, ?LB, Z.eqb_refl. silq. stq. silq. done_q. apply some_eq. unfold join_out. cbnx.
      change (8 * 4) with 32. rewrite low_low, rd8_hi by (auto; lia). apply join_low; lia.
  - destruct Hin as (F0 & F5 & F1 & F2 & F3 & F4). stp; sil. stp; sil. stp. rewrite F0, F1, F2, F3, F4, (low_id _ a) by auto.
    change (low 32 0 + 0 * 2 ^ 32) with 0. lin_at (rd LE (o_mem o1) a 8).
    { split; [reflexivity|]. destruct (Z.eqb_spec 0 (rd LE (o_mem o1) a 8)) as [E|E]; [|apply meq_refl].
      apply meq_sym, wr_rd_same; [auto|lia|]. rewrite <- E. reflexivity. }
    destruct (Z.eqb_spec 0 (rd LE (o_mem o1) a 8)) as [E|E]; cbnx.
    + stq. rewrite ?F5, ?LB, Z.eqb_refl. silq. stq. rewrite ?F5, ?LB, Z.eqb_refl. silq. stq. silq. done_q. apply some_eq. unfold join_out. cbnx. rewrite F3, F4. exact E.
    + stq. rewrite ?F5, ?LB, Z.eqb_refl. silq. stq. rewrite ?F5, ?LB, Z.eqb_refl. silq. stq. silq. done_q. apply some_eq. unfold join_out. cbnx.
      change (8 * 4) with 32. rewrite low_low, rd8_hi by (auto; lia). apply join_low; lia.
Qed.
(* the halves of a 2k-bit value loaded from a buffer *)
Lemma half_lo k v j : 0 <= k -> junk_hi k k (low k v) j = low k v.
Proof. intros. apply junk_hi_full; auto. apply low_range; auto. Qed.
Lemma half_hi k v j : 0 <= k -> 0 <= v < 2 ^ (2 * k) -> junk_hi k k (Z.shiftr v k) j = Z.shiftr v k.
Proof. intros. apply junk_hi_full; auto. apply hi_range; auto. Qed.
Lemma pair_val k v : 0 <= k -> low k (low k v) + Z.shiftr v k * 2 ^ k = v.
Proof. intros. rewrite low_low by lia. apply join_low_shiftr; auto. Qed.
Lemma shiftl_zero_hi v : Z.shiftl (Z.shiftr 0 v) v = 0.
Proof. now rewrite Z.shiftr_0_l, Z.shiftl_0_l. Qed.
Lemma xl_store64_fn_atomic c b a v t : x_w c = 32 -> 0 <= a < 2 ^ x_pw c -> 0 <= b_val b < 2 ^ x_pw c -> 0 <= v < 2 ^ 64 ->
  atomic_fx LE (xl_store64_fn c b a v t) (store_spec LE a 8 v).
Proof.
  intros Hw Ha Hb Hv. assert (LB : low (x_pw c) (b_val b) = b_val b) by now apply low_id.
  unfold xl_store64_fn. destruct (xl_wide c); unfa.
  - start f r. destruct Hin as [F1 F2]. stp. rewrite ?F2, ?LB, Z.eqb_refl. sil. stp; sil. stp. rewrite F1, (low_id _ a), Z.add_0_r by auto.
    lin_at tt; [apply meq_refl|]. stq; silq; done_q; reflexivity.
  - start f r. destruct Hin as [F1 F2]. stp; sil. stp. rewrite ?F2, ?LB, Z.eqb_refl. sil. stp; sil. stp. rewrite F1, (low_id _ a), Z.add_0_r by auto.
    lin_at tt; [rewrite Z.lxor_nilpotent, shiftl_zero_hi, Z.add_0_r; apply meq_refl|]. stq; silq; done_q; reflexivity.
  - loop_inv 5%nat (fun f : regs => f AR7 = a /\ f XB = low 32 v /\ f XC = Z.shiftr v 32) Loop.
    { pose proof Hi as (Fd & F2 & F3). stp; sil. stp. rewrite Fd, F2, F3, pair_val by lia. br_case HE; cbnx.
      - lin_at tt; [apply meq_refl|]. stq. silq. done_q. reflexivity.
      - sil. stp. sil. apply weaken. apply IH; cbnx; [lts|]. auto. }
    start f r. destruct Hin as (Fd & F2). stp. rewrite ?F2, ?LB, Z.eqb_refl. sil. stp. rewrite ?F2, ?LB, Z.eqb_refl. sil. do 3 (stp; sil). apply weaken. apply Loop; cbnx.
    rewrite Fd, (low_id _ a), Hw by auto. split; [auto|]. split; [apply half_lo; lia|apply half_hi; [lia|exact Hv]].
  - loop_inv 5%nat (fun f : regs => f AR7 = a /\ f XB = low 32 v /\ f XC = Z.shiftr v 32) Loop.
    { pose proof Hi as (Fd & F2 & F3). stp; sil. stp. rewrite Fd, F2, F3, pair_val by lia. br_case HE; cbnx.
      - lin_at tt; [apply meq_refl|]. stq. silq. done_q. reflexivity.
      - sil. stp. sil. apply weaken. apply IH; cbnx; [lts|]. auto. }
    start f r. destruct Hin as (Fd & F2). stp. rewrite ?F2, ?LB, Z.eqb_refl. sil. stp. rewrite ?F2, ?LB, Z.eqb_refl. sil. do 3 (stp; sil). apply weaken. apply Loop; cbnx.
    rewrite Fd, (low_id _ a), Hw by auto. split; [auto|]. split; [apply half_lo; lia|apply half_hi; [lia|exact Hv]].
Qed.
Lemma xl_swap64_fn_atomic c b a v : x_w c = 32 -> 0 <= a < 2 ^ x_pw c -> 0 <= b_val b < 2 ^ x_pw c -> 0 <= b_out b < 2 ^ x_pw c -> 0 <= v < 2 ^ 64 ->
  atomic_fx LE (xl_swap64_fn c b a v) (swap_spec LE a 8 v).
Proof.
  intros Hw Ha Hb Hp Hv. assert (LB : low (x_pw c) (b_val b) = b_val b) by now apply low_id. assert (LO : low (x_pw c) (b_out b) = b_out b) by now apply low_id.
  unfold xl_swap64_fn. unfa.
  loop_inv 6%nat (fun f : regs => f AR7 = a /\ f XB = low 32 v /\ f XC = Z.shiftr v 32 /\ f XS = b_out b /\ 0 <= f XA < 2 ^ 32 /\ 0 <= f XD < 2 ^ 32) Loop.
  { pose proof Hi as (Fd & F2 & F3 & F4 & Fa & FD). stp; sil. stp. rewrite Fd, F2, F3, pair_val by lia. br_case HE; cbnx.
    - lin_at (rd LE (o_mem o0) a 8). { split; [reflexivity|apply meq_refl]. }
      stq. silq. stq. rewrite ?F4, ?LO, Z.eqb_refl. silq. stq. rewrite ?F4, ?LO, Z.eqb_refl. silq. stq. silq. done_q. apply some_eq. unfold join_out. cbnx.
      change (8 * 4) with 32. rewrite <- HE, (low_id 32 (f XD)) by auto. rewrite Z.shiftl_mul_pow2 by lia. reflexivity.
    - sil. stp. sil. apply weaken. apply IH; cbnx; [lts|]. repeat split; auto; try (apply low_range; lia); apply (hi_range 32); try lia; apply (rd_range LE _ a 8); auto; lia. }
  start f r. destruct Hin as (Fd & F2 & F3). stp; sil. stp. rewrite ?F2, ?LB, Z.eqb_refl. sil. stp. rewrite ?F2, ?LB, Z.eqb_refl. sil. do 3 (stp; sil). apply weaken. apply Loop; cbnx.
  rewrite Fd, F3, (low_id _ a), Hw by auto. split; [auto|]. split; [apply half_lo; lia|]. split; [apply half_hi; [lia|exact Hv]|].
  split; [auto|]. split; apply (junk_hi_range 32); lia.
Qed.
Lemma xl_cas64_fn_atomic c b a old new : x_w c = 32 -> 0 <= a < 2 ^ x_pw c -> 0 <= b_old b < 2 ^ x_pw c -> 0 <= b_new b < 2 ^ x_pw c -> 0 <= b_out b < 2 ^ x_pw c ->
  0 <= old < 2 ^ 64 -> 0 <= new < 2 ^ 64 -> atomic_fx LE (xl_cas64_fn c b a old new) (cas_spec LE a 8 old new).
Proof.
  intros Hw Ha B1 B2 B3 Vo Vn.
  assert (L1 : low (x_pw c) (b_old b) = b_old b) by now apply low_id. assert (L2 : low (x_pw c) (b_new b) = b_new b) by now apply low_id.
  assert (L3 : low (x_pw c) (b_out b) = b_out b) by now apply low_id.
  unfold xl_cas64_fn. unfa. start f r. destruct Hin as (F0 & F1 & F2 & F3).
  stp; sil. do 2 (stp; rewrite ?F1, ?L1, Z.eqb_refl; sil). do 2 (stp; rewrite ?F2, ?L2, Z.eqb_refl; sil). stp; sil. stp.
  rewrite F0, (low_id _ a), Hw by auto. change (8 * 4) with 32. rewrite !half_lo, !half_hi, !pair_val by (auto; lia). br_case HE; cbnx.
  - lin_at (rd LE (o_mem o5) a 8, true). { split; [reflexivity|]. cbn [fst snd]. split; [auto|apply meq_refl]. }
    stq. silq. do 2 (stq; rewrite ?F3, ?L3, Z.eqb_refl; silq). stq. silq. done_q. rewrite sete_low by lia. apply (ret_cas_l_ok _ _ true). unfold join_out. cbnx.
    change (8 * 4) with 32. rewrite ?half_lo, ?half_hi, low_low, <- HE by (auto; lia). rewrite (low_id 32 (Z.shiftr old 32)) by (apply hi_range; [lia|exact Vo]). apply join_low; lia.
  - lin_at (rd LE (o_mem o5) a 8, false). { apply cas_fail_spec; auto. }
    stq. silq. do 2 (stq; rewrite ?F3, ?L3, Z.eqb_refl; silq). stq. silq. done_q. rewrite sete_low by lia. apply (ret_cas_l_ok _ _ false). unfold join_out. cbnx.
    change (8 * 4) with 32. rewrite low_low, rd8_hi by (auto; lia). apply join_low; lia.
Qed.

Lemma rd16_hi e m a : wf_mem m -> low 64 (Z.shiftr (rd e m a 16) 64) = Z.shiftr (rd e m a 16) 64.
Proof. intros H. apply low_id. apply hi_range; [lia|]. apply (rd_range e m a 16 H); lia. Qed.
Lemma xl_load128_fn_atomic c b a : atomic_fx LE (xl_load128_fn c b a) (load_spec LE a 16).
Proof.
  unfold xl_load128_fn. unfa. start f r. destruct Hin as ([_ F0] & [_ F1] & F2 & F3 & F4).
  do 3 (stp; sil). stp. rewrite F0, F2, F3, F4, Z.lxor_nilpotent.
  change (low 64 0 + 0 * 2 ^ 64) with 0. lin_at (rd LE (o_mem o2) a 16).
  { split; [reflexivity|]. destruct (Z.eqb_spec 0 (rd LE (o_mem o2) a 16)) as [E|E]; [|apply meq_refl].
    apply meq_sym, wr_rd_same; [auto|lia|]. rewrite <- E. reflexivity. }
  destruct (Z.eqb_spec 0 (rd LE (o_mem o2) a 16)) as [E|E]; cbnx.
  + do 2 (stq; xp F1; silq). stq. silq. done_q. apply some_eq. unfold join_out. cbnx. rewrite F3, F4. exact E.
  + do 2 (stq; xp F1; silq). stq. silq. done_q. apply some_eq. unfold join_out. cbnx. change (8 * 8) with 64. rewrite low_low, rd16_hi by (auto; lia). apply join_low; lia.
Qed.
Lemma xl_store128_fn_atomic c b a v : x_w c = 64 -> 0 <= v < 2 ^ 128 -> atomic_fx LE (xl_store128_fn c b a v) (store_spec LE a 16 v).
Proof.
  intros Hw Hv. unfold xl_store128_fn. unfa.
  loop_inv 6%nat (fun f : regs => f AR7 = a /\ f XB = low 64 v /\ f XC = Z.shiftr v 64) Loop.
  { pose proof Hi as (Fd & F2 & F3). stp; sil. stp. rewrite Fd, F2, F3, pair_val by lia. br_case HE; cbnx.
    - lin_at tt; [apply meq_refl|]. stq. silq. stq. silq. done_q. reflexivity.
    - sil. stp. sil. apply weaken. apply IH; cbnx; [lts|]. auto. }
  start f r. destruct Hin as ([_ Fd] & [_ F2]). stp; sil. do 2 (stp; xp F2; sil). do 3 (stp; sil). apply weaken. apply Loop; cbnx. rewrite Hw.
  split; [auto|]. split; [apply half_lo; lia|apply half_hi; [lia|exact Hv]].
Qed.
Lemma xl_swap128_fn_atomic c b a v : x_w c = 64 -> 0 <= v < 2 ^ 128 -> atomic_fx LE (xl_swap128_fn c b a v) (swap_spec LE a 16 v).
Proof.
  intros Hw Hv. unfold xl_swap128_fn. unfa.
  loop_inv 6%nat (fun f : regs => f AR7 = a /\ f XB = low 64 v /\ f XC = Z.shiftr v 64 /\ low (x_pw c) (f OutP) = b_out b /\ 0 <= f XA < 2 ^ 64 /\ 0 <= f XD < 2 ^ 64) Loop.
  { pose proof Hi as (Fd & F2 & F3 & Fp & Fa & FD). stp; sil. stp. rewrite Fd, F2, F3, pair_val by lia. br_case HE; cbnx.
    - lin_at (rd LE (o_mem o0) a 16). { split; [reflexivity|apply meq_refl]. }
      stq. silq. do 2 (stq; xp Fp; silq). stq. silq. done_q. apply some_eq. unfold join_out. cbnx.
      change (8 * 8) with 64. rewrite <- HE, (low_id 64 (f XD)) by auto. rewrite Z.shiftl_mul_pow2 by lia. reflexivity.
    - sil. stp. sil. apply weaken. apply IH; cbnx; [lts|]. repeat split; auto; try (apply low_range; lia); apply (hi_range 64); try lia; apply (rd_range LE _ a 16); auto; lia. }
  start f r. destruct Hin as ([_ Fd] & [_ F2] & [_ Fp]). stp; sil. do 2 (stp; xp F2; sil). do 3 (stp; sil). apply weaken. apply Loop; cbnx. rewrite Hw.
  split; [auto|]. split; [apply half_lo; lia|]. split; [apply half_hi; [lia|exact Hv]|]. split; [auto|]. split; apply (junk_hi_range 64); lia.
Qed.
Lemma xl_cas128_fn_atomic c b a old new : x_w c = 64 -> 0 <= old < 2 ^ 128 -> 0 <= new < 2 ^ 128 -> atomic_fx LE (xl_cas128_fn c b a old new) (cas_spec LE a 16 old new).
Proof.
  intros Hw Vo Vn. unfold xl_cas128_fn. unfa. start f r. destruct Hin as ([_ F0] & [_ F1] & [_ F2] & [_ F3]).
  stp; sil. do 2 (stp; xp F1; sil). do 2 (stp; xp F2; sil). do 2 (stp; sil). stp. rewrite F0, Hw. change (8 * 8) with 64.
  rewrite !half_lo, !half_hi, !pair_val by (auto; lia). br_case HE; cbnx.
  - lin_at (rd LE (o_mem o6) a 16, true). { split; [reflexivity|]. cbn [fst snd]. split; [auto|apply meq_refl]. }
    stq. silq. do 2 (stq; xp F3; silq). stq. silq. done_q. rewrite sete_low by lia. apply (ret_cas_l_ok _ _ true). unfold join_out. cbnx.
    change (8 * 8) with 64. rewrite ?half_lo, ?half_hi, low_low, <- HE by (auto; lia). rewrite (low_id 64 (Z.shiftr old 64)) by (apply hi_range; [lia|exact Vo]). apply join_low; lia.
  - lin_at (rd LE (o_mem o6) a 16, false). { apply cas_fail_spec; auto. }
    stq. silq. do 2 (stq; xp F3; silq). stq. silq. done_q. rewrite sete_low by lia. apply (ret_cas_l_ok _ _ false). unfold join_out. cbnx.
    change (8 * 8) with 64. rewrite low_low, rd16_hi by (auto; lia). apply join_low; lia.
Qed.

(* ---- what the trait implementations do ---- *)
Theorem xl_load_atomic c b n o a f : x_wf c -> bufs_ok (x_pw c) b -> 0 <= a < 2 ^ x_pw c -> xl_load c b n o a = Impl f -> atomic_fx LE f (load_spec LE a n).
Proof.
  intros Hc (B1 & B2 & B3 & B4) Ha. unfold xl_load. disp.
  - destruct (x_sizes c n Hc E). apply xl_load_fn_atomic; auto.
  - destruct (x_dw_w c n E0) as [-> _]. apply xl_load64_fn_atomic; auto.
  - destruct (x_qw_w c n E1) as [-> _]. apply xl_load128_fn_atomic.
Qed.
Theorem xl_store_atomic c b n o a v f : x_wf c -> bufs_ok (x_pw c) b -> 0 <= a < 2 ^ x_pw c -> 0 <= v < 2 ^ (8 * n) ->
  xl_store c b n o a v = Impl f -> atomic_fx LE f (store_spec LE a n v).
Proof.
  intros Hc (B1 & B2 & B3 & B4) Ha Hv. unfold xl_store.
  destruct (x_word c n) eqn:E; [|destruct (x_dw c n) eqn:E0; [|destruct (x_qw c n) eqn:E1]].
  - destruct (x_sizes c n Hc E). disp. apply xl_store_fn_atomic; auto.
  - destruct (x_dw_w c n E0) as [-> Hw].
    destruct (xl_wide c) eqn:W; disp; apply xl_store64_fn_atomic; auto.
  - destruct (x_qw_w c n E1) as [-> Hw]. disp. apply xl_store128_fn_atomic; auto.
  - discriminate.
Qed.
Theorem xl_swap_atomic c b n o a v f : x_wf c -> bufs_ok (x_pw c) b -> 0 <= a < 2 ^ x_pw c -> 0 <= v < 2 ^ (8 * n) ->
  xl_swap c b n o a v = Impl f -> atomic_fx LE f (swap_spec LE a n v).
Proof.
  intros Hc (B1 & B2 & B3 & B4) Ha Hv. unfold xl_swap. disp.
  - destruct (x_sizes c n Hc E). apply xl_swap_fn_atomic; auto.
  - destruct (x_dw_w c n E0) as [-> Hw]. apply xl_swap64_fn_atomic; auto.
  - destruct (x_qw_w c n E1) as [-> Hw]. apply xl_swap128_fn_atomic; auto.
Qed.
Theorem xl_cas_atomic c b n os of a old new f : x_wf c -> bufs_ok (x_pw c) b -> 0 <= a < 2 ^ x_pw c -> 0 <= old < 2 ^ (8 * n) -> 0 <= new < 2 ^ (8 * n) ->
  xl_cas c b n os of a old new = Impl f -> atomic_fx LE f (cas_spec LE a n old new).
Proof.
  intros Hc (B1 & B2 & B3 & B4) Ha Vo Vn. unfold xl_cas. disp.
  - destruct (x_sizes c n Hc E). apply xl_cas_fn_atomic; auto.
  - destruct (x_dw_w c n E0) as [-> Hw]. apply xl_cas64_fn_atomic; auto.
  - destruct (x_qw_w c n E1) as [-> Hw]. apply xl_cas128_fn_atomic; auto.
Qed.
