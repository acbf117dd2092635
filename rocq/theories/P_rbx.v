(* The register that a block saves and restores because LLVM reserves it - rbx on x86_64 ({rbx_tmp}), esi in the 32-bit blocks of
   arch_legacy/x86.rs ({esi_tmp}) - is reserved in some functions only; elsewhere the compiler may give the temporary that very register,
   which [permitted] in Alloc.v excludes.  The blocks with this choice: src/arch/x86.rs:518-680, src/arch_legacy/x86.rs:290-330, 419-516, 537-756. *)
From Verif Require Import Sym Prog Arch_x86 Arch_x86l Fields UtilsProofs P_legacy P_x86 Q_x86 P_x86l Q_x86l Alloc.

(* {rbx_tmp} = rbx, {esi_tmp} = esi *)
Definition into (s : reg) : reg -> reg := fun r => if reg_beq r Tmp then s else r.
Ltac allocd := unfold alloc, alloc_instr, pull; cbv beta iota delta [map f_prog f_in f_out f_clob f_late into reg_beq fst snd mov xor_ x_pst x_pld].

Lemma x_load128_into_atomic c a : atomic_fx LE (alloc (into XB) (x_load128_fn c a)) (load_spec LE a 16).
Proof.
  unfold x_load128_fn. P_x86.unfa. allocd. start f r. destruct Hin as ([_ F0] & F2 & F3 & F4).
  do 3 (stp; sil). stp. rewrite F0, F2, F3, F4, Z.lxor_nilpotent.
    change (low 64 0 + 0 * 2 ^ 64) with 0. lin_at (rd LE (o_mem o2) a 16).
    { split; [reflexivity|]. destruct (Z.eqb_spec 0 (rd LE (o_mem o2) a 16)) as [E|E]; [|apply meq_refl].
      apply meq_sym, wr_rd_same; [auto|lia|]. rewrite <- E. reflexivity. }
    stq. silq. done_q. apply some_eq. destruct (Z.eqb_spec 0 (rd LE (o_mem o2) a 16)) as [E|E]; cbnx.
    + rewrite F3, F4. exact E.
    + apply (x_pair_join A_x86_64 64); lia.
Qed.
Lemma x_load128_into_contract c a : contract LE (alloc (into XB) (x_load128_fn c a)).
Proof. unfold x_load128_fn. P_x86.unfa. allocd. contract_tac. Qed.
Lemma x_load128_into_progress c a x y : progress LE (alloc (into XB) (x_load128_fn c a)) x y 5.
Proof. unfold x_load128_fn. P_x86.unfa. allocd. startt f r. do 5 stt. tend. Qed.
Lemma x_store128_into_atomic c a v : x_w c = 64 -> atomic_fx LE (alloc (into XB) (x_store128_fn c a v)) (store_spec LE a 16 v).
Proof.
  intros Hw. unfold x_store128_fn, x_wide128. P_x86.unfa. allocd.
  loop_inv 4%nat (fun f : regs => f AR7 = a /\ f XB = pair_lo A_x86_64 LE 64 v /\ f XC = pair_hi A_x86_64 LE 64 v) Loop.
    { pose proof Hi as (Fd & F2 & F3). stp; sil. stp. rewrite Fd, F2, F3, x_pair_lo by lia. br_case HE; cbnx.
      - lin_at tt; [apply meq_refl|]. stq. silq. stq. silq. done_q. reflexivity.
      - sil. stp. sil. apply weaken. apply IH; cbnx; [lts|]. auto. }
  start f r. destruct Hin as ([_ Fd] & F2 & F3). do 4 (stp; sil). apply weaken. apply Loop; cbnx. auto.
Qed.
Lemma x_store128_into_contract c a v : contract LE (alloc (into XB) (x_store128_fn c a v)).
Proof. unfold x_store128_fn, x_wide128. P_x86.unfa. allocd. contract_tac. Qed.
Lemma x_store128_into_progress c a v : progress LE (alloc (into XB) (x_store128_fn c a v)) a 16 11.
Proof.
  unfold x_store128_fn, x_wide128. P_x86.unfa. allocd.
  tinv_w 4%nat 4%nat (fun f : regs => f AR7 = a) (fun f : regs => low 64 (f XA) + f XD * 2 ^ 64) Loop.
  { Q_x86l.wide_body. }
  startt f r. destruct Hin as [[_ Fd] _]. do 6 stt. rewrite Fd. tcase EE; [stt; cbn [Z.eqb]; stt; tend|].
  stt. cbn [Z.eqb]. eapply T_le; [|apply (Loop _ _ _ _ d5); cbnx; auto]; [lia|].
  intros X. tzero. rewrite low_low by lia. rewrite join_low_shiftr by lia. congruence.
Qed.
Lemma x_swap128_into_atomic c a v : x_w c = 64 -> atomic_fx LE (alloc (into XB) (x_swap128_fn c a v)) (swap_spec LE a 16 v).
Proof.
  intros Hw. unfold x_swap128_fn, x_wide128. P_x86.unfa. allocd.
  loop_inv 4%nat (fun f : regs => f AR7 = a /\ 0 <= f XA < 2 ^ 64 /\ f XB = pair_lo A_x86_64 LE 64 v /\ f XC = pair_hi A_x86_64 LE 64 v) Loop.
  { pose proof Hi as (Fd & Fr & F2 & F3). stp; sil. stp. rewrite Fd, F2, F3, x_pair_lo by lia. br_case HE; cbnx.
    - lin_at (rd LE (o_mem o0) a 16). { split; [reflexivity|apply meq_refl]. }
      stq. silq. stq. silq. done_q. apply some_eq. apply x_pair_eq; auto; lia.
    - sil. stp. sil. apply weaken. apply IH; cbnx; [lts|]. repeat split; auto; apply low_range; lia. }
  start f r. destruct Hin as ([_ Fd] & F2 & F3). do 4 (stp; sil). apply weaken. apply Loop; cbnx.
  split; [auto|]. split; [|auto]. rewrite Hw. apply (junk_hi_range 64); lia.
Qed.
Lemma x_swap128_into_contract c a v : contract LE (alloc (into XB) (x_swap128_fn c a v)).
Proof. unfold x_swap128_fn, x_wide128. P_x86.unfa. allocd. contract_tac. Qed.
Lemma x_swap128_into_progress c a v : progress LE (alloc (into XB) (x_swap128_fn c a v)) a 16 11.
Proof.
  unfold x_swap128_fn, x_wide128. P_x86.unfa. allocd.
  tinv_w 4%nat 4%nat (fun f : regs => f AR7 = a) (fun f : regs => low 64 (f XA) + f XD * 2 ^ 64) Loop.
  { Q_x86l.wide_body. }
  startt f r. destruct Hin as [[_ Fd] _]. do 6 stt. rewrite Fd. tcase EE; [stt; cbn [Z.eqb]; stt; tend|].
  stt. cbn [Z.eqb]. eapply T_le; [|apply (Loop _ _ _ _ d5); cbnx; auto]; [lia|].
  intros X. tzero. rewrite low_low by lia. rewrite join_low_shiftr by lia. congruence.
Qed.
Lemma x_cas128_into_atomic c a old new : atomic_fx LE (alloc (into XB) (x_cas128_fn c a old new)) (cas_spec LE a 16 old new).
Proof.
  unfold x_cas128_fn. P_x86.unfa. allocd. start f r. destruct Hin as ([_ F0] & F1 & F2 & F3 & F4).
  do 2 (stp; sil). stp. rewrite F0, F1, F2, F3, F4. rewrite !x_pair_lo by lia. br_case HE; cbnx.
  - lin_at (rd LE (o_mem o1) a 16, true). { split; [reflexivity|]. cbn [fst snd]. split; [auto|apply meq_refl]. }
    stq. silq. stq. silq. done_q. rewrite sete_low by lia. apply (ret_cas2_ok _ _ _ _ _ true). rewrite F3, F4, pair_join_split by lia. exact HE.
  - lin_at (rd LE (o_mem o1) a 16, false). { apply cas_fail_spec; auto. }
    stq. silq. stq. silq. done_q. rewrite sete_low by lia. apply (ret_cas2_ok _ _ _ _ _ false). apply x_pair_join; lia.
Qed.
Lemma x_cas128_into_contract c a old new : contract LE (alloc (into XB) (x_cas128_fn c a old new)).
Proof. unfold x_cas128_fn. P_x86.unfa. allocd. contract_tac. Qed.
Lemma x_cas128_into_progress c a old new x y : progress LE (alloc (into XB) (x_cas128_fn c a old new)) x y 5.
Proof. unfold x_cas128_fn. P_x86.unfa. allocd. startt f r. do 5 stt. tend. Qed.
Lemma xl_load64_into_atomic c b a : 0 <= a < 2 ^ x_pw c -> 0 <= b_out b < 2 ^ x_pw c -> atomic_fx LE (alloc (into XS) (xl_load64_fn c b a)) (load_spec LE a 8).
Proof.
  intros Ha Hb. assert (LB : low (x_pw c) (b_out b) = b_out b) by now apply low_id.
  unfold xl_load64_fn. destruct (xl_wide c); P_x86l.unfa; allocd; start f r.
  - destruct Hin as [Fs Fp]. stp; sil. stp. rewrite Fs, (low_id _ a), Z.add_0_r by auto. lin_at (rd LE (o_mem o0) a 8); [apply load_spec_refl|].
    stq. silq. stq. rewrite ?Fp, ?LB, Z.eqb_refl. silq. stq. rewrite ?Fp, ?LB, Z.eqb_refl. silq.
    done_q. apply some_eq. unfold join_out. cbnx. change (8 * 4) with 32. rewrite shuf85_low by (pose proof (rd_range LE (o_mem o0) a 8 Ho0); lia).
    rewrite rd8_hi by auto. apply join_low; lia.
  - destruct Hin as [Fs Fp]. stp; sil. stp; sil. stp. rewrite Fs, (low_id _ a), Z.add_0_r by auto. lin_at (rd LE (o_mem o1) a 8); [apply load_spec_refl|].
    stq. rewrite ?Fp, ?LB, Z.eqb_refl. silq. stq. silq. stq. rewrite ?Fp, ?LB, Z.eqb_refl. silq.
    done_q. apply some_eq. unfold join_out. cbnx. change (8 * 4) with 32. change (8 * 8) with 64. rewrite shuf85_low by (apply junk_hi_range; lia).
    rewrite junk_hi64, junk_hi_low, rd8_hi by (auto; lia). apply join_low; lia.
  - destruct Hin as (F0 & F5 & F1 & F2 & F3 & F4). stp; sil. stp; sil. stp. rewrite F0, F1, F2, F3, F4, (low_id _ a) by auto.
    change (low 32 0 + 0 * 2 ^ 32) with 0. lin_at (rd LE (o_mem o1) a 8).
    { split; [reflexivity|]. destruct (Z.eqb_spec 0 (rd LE (o_mem o1) a 8)) as [E|E]; [|apply meq_refl].
      apply meq_sym, wr_rd_same; [auto|lia|]. rewrite <- E. reflexivity. }
    destruct (Z.eqb_spec 0 (rd LE (o_mem o1) a 8)) as [E|E]; cbnx.
    + stq. rewrite ?F5, ?LB, Z.eqb_refl. silq. stq. rewrite ?F5, ?LB, Z.eqb_refl. silq. stq. silq. done_q. apply some_eq. unfold join_out. cbnx. rewrite F3, F4. exact E.
    + stq. rewrite ?F5, ?LB, Z.eqb_refl. silq. stq. rewrite ?F5, ?LB, Z.eqb_refl. silq. stq. silq. done_q. apply some_eq. unfold join_out. cbnx.
      change (8 * 4) with 32. rewrite low_low, rd8_hi by (auto; lia). apply join_low; lia.
  - destruct Hin as (F0 & F5 & F1 & F2 & F3 & F4). stp; sil. stp; sil. stp. rewrite F0, F1, F2, F3, F4, (low_id _ a) by auto.
    change (low 32 0 + 0 * 2 ^ 32) with 0. lin_at (rd LE (o_mem o1) a 8).
    { split; [reflexivity|]. destruct (Z.eqb_spec 0 (rd LE (o_mem o1) a 8)) as [E|E]; [|apply meq_refl].
      apply meq_sym, wr_rd_same; [auto|lia|]. rewrite <- E. reflexivity. }
    destruct (Z.eqb_spec 0 (rd LE (o_mem o1) a 8)) as [E|E]; cbnx.
    + stq. rewrite ?F5, ?LB, Z.eqb_refl. silq. stq. rewrite ?F5, ?LB, Z.eqb_refl. silq. stq. silq. done_q. apply some_eq. unfold join_out. cbnx. rewrite F3, F4. exact E.
    + stq. rewrite ?F5, ?LB, Z.eqb_refl. silq. stq. rewrite ?F5, ?LB, Z.eqb_refl. silq. stq. silq. done_q. apply some_eq. unfold join_out. cbnx.
      change (8 * 4) with 32. rewrite low_low, rd8_hi by (auto; lia). apply join_low; lia.
Qed.
Lemma xl_load64_into_contract c b a : contract LE (alloc (into XS) (xl_load64_fn c b a)).
Proof. unfold xl_load64_fn. destruct (xl_wide c); P_x86l.unfa; allocd; [contract_tac|contract_tac|contract_tac|contract_tac]. Qed.
Lemma xl_load64_into_progress c b a x y : progress LE (alloc (into XS) (xl_load64_fn c b a)) x y 6.
Proof. unfold xl_load64_fn. destruct (xl_wide c); P_x86l.unfa; allocd; startt f r; do 5 stt; try tend; stt; tend. Qed.
Lemma xl_swap64_into_atomic c b a v : x_w c = 32 -> 0 <= a < 2 ^ x_pw c -> 0 <= b_val b < 2 ^ x_pw c -> 0 <= b_out b < 2 ^ x_pw c -> 0 <= v < 2 ^ 64 ->
  atomic_fx LE (alloc (into XS) (xl_swap64_fn c b a v)) (swap_spec LE a 8 v).
Proof.
  intros Hw Ha Hb Hp Hv. assert (LB : low (x_pw c) (b_val b) = b_val b) by now apply low_id. assert (LO : low (x_pw c) (b_out b) = b_out b) by now apply low_id.
  unfold xl_swap64_fn. P_x86l.unfa. allocd.
  loop_inv 6%nat (fun f : regs => f AR7 = a /\ f XB = low 32 v /\ f XC = Z.shiftr v 32 /\ f XS = b_out b /\ 0 <= f XA < 2 ^ 32 /\ 0 <= f XD < 2 ^ 32) Loop.
  { pose proof Hi as (Fd & F2 & F3 & F4 & Fa & FD). stp; sil. stp. rewrite Fd, F2, F3, pair_val by lia. br_case HE; cbnx.
    - lin_at (rd LE (o_mem o0) a 8). { split; [reflexivity|apply meq_refl]. }
      stq. silq. stq. rewrite ?F4, ?LO, Z.eqb_refl. silq. stq. rewrite ?F4, ?LO, Z.eqb_refl. silq. stq. silq. done_q. apply some_eq. unfold join_out. cbnx.
      change (8 * 4) with 32. rewrite <- HE, (low_id 32 (f XD)) by auto. rewrite Z.shiftl_mul_pow2 by lia. reflexivity.
    - sil. stp. sil. apply weaken. apply IH; cbnx; [lts|]. repeat split; auto; try (apply low_range; lia); apply (hi_range 32); try lia; apply (rd_range LE _ a 8); auto; lia. }
  start f r. destruct Hin as (Fd & F2 & F3). stp; sil. stp. rewrite ?F2, ?LB, Z.eqb_refl. sil. stp. rewrite ?F2, ?LB, Z.eqb_refl. sil. do 3 (stp; sil). apply weaken. apply Loop; cbnx.
  rewrite Fd, F3, (low_id _ a), Hw by auto. split; [auto|]. split; [apply half_lo; lia|]. split; [apply half_hi; [lia|exact Hv]|].
  split; [auto|]. split; apply (junk_hi_range 32); lia.
Qed.
Lemma xl_swap64_into_contract c b a v : contract LE (alloc (into XS) (xl_swap64_fn c b a v)).
Proof. unfold xl_swap64_fn. P_x86l.unfa. allocd. contract_tac. Qed.
Lemma xl_swap64_into_progress c b a v : 0 <= a < 2 ^ x_pw c -> progress LE (alloc (into XS) (xl_swap64_fn c b a v)) a 8 15.
Proof.
  intros Ha. unfold xl_swap64_fn. P_x86l.unfa. allocd.
  tinv_w 6%nat 6%nat (fun f : regs => f AR7 = a) (fun f : regs => low 32 (f XA) + f XD * 2 ^ 32) Loop.
  { Q_x86l.wide_body. }
  startt f r. destruct Hin as [Fd _]. stt. do 2 sttg. do 5 stt. rewrite Fd, (low_id _ a) by auto. tcase EE; [stt; cbn [Z.eqb]; repeat stt; tend|].
  stt. cbn [Z.eqb]. eapply T_le; [|apply (Loop _ _ _ _ d7); cbnx; auto; rewrite ?Fd, ?(low_id _ a) by auto; auto]; [lia|].
  intros X. tzero. rewrite low_low by lia. rewrite join_low_shiftr by lia. congruence.
Qed.
Lemma xl_cas64_into_atomic c b a old new : x_w c = 32 -> 0 <= a < 2 ^ x_pw c -> 0 <= b_old b < 2 ^ x_pw c -> 0 <= b_new b < 2 ^ x_pw c -> 0 <= b_out b < 2 ^ x_pw c ->
  0 <= old < 2 ^ 64 -> 0 <= new < 2 ^ 64 -> atomic_fx LE (alloc (into XS) (xl_cas64_fn c b a old new)) (cas_spec LE a 8 old new).
Proof.
  intros Hw Ha B1 B2 B3 Vo Vn.
  assert (L1 : low (x_pw c) (b_old b) = b_old b) by now apply low_id. assert (L2 : low (x_pw c) (b_new b) = b_new b) by now apply low_id.
  assert (L3 : low (x_pw c) (b_out b) = b_out b) by now apply low_id.
  unfold xl_cas64_fn. P_x86l.unfa. allocd. start f r. destruct Hin as (F0 & F1 & F2 & F3).
  stp; sil. do 2 (stp; rewrite ?F1, ?L1, Z.eqb_refl; sil). do 2 (stp; rewrite ?F2, ?L2, Z.eqb_refl; sil). stp; sil. stp.
  rewrite F0, (low_id _ a), Hw by auto. change (8 * 4) with 32. rewrite !half_lo, !half_hi, !pair_val by (auto; lia). br_case HE; cbnx.
  - lin_at (rd LE (o_mem o5) a 8, true). { split; [reflexivity|]. cbn [fst snd]. split; [auto|apply meq_refl]. }
    stq. silq. do 2 (stq; rewrite ?F3, ?L3, Z.eqb_refl; silq). stq. silq. done_q. rewrite sete_low by lia. apply (ret_cas_l_ok _ _ true). unfold join_out. cbnx.
    change (8 * 4) with 32. rewrite ?half_lo, ?half_hi, low_low, <- HE by (auto; lia). rewrite (low_id 32 (Z.shiftr old 32)) by (apply hi_range; [lia|exact Vo]). apply join_low; lia.
  - lin_at (rd LE (o_mem o5) a 8, false). { apply cas_fail_spec; auto. }
    stq. silq. do 2 (stq; rewrite ?F3, ?L3, Z.eqb_refl; silq). stq. silq. done_q. rewrite sete_low by lia. apply (ret_cas_l_ok _ _ false). unfold join_out. cbnx.
    change (8 * 4) with 32. rewrite low_low, rd8_hi by (auto; lia). apply join_low; lia.
Qed.
Lemma xl_cas64_into_contract c b a old new : contract LE (alloc (into XS) (xl_cas64_fn c b a old new)).
Proof. unfold xl_cas64_fn. P_x86l.unfa. allocd. contract_tac. Qed.
Lemma xl_cas64_into_progress c b a old new x y : progress LE (alloc (into XS) (xl_cas64_fn c b a old new)) x y 11.
Proof. unfold xl_cas64_fn. P_x86l.unfa. allocd. startt f r. do 11 stt. tend. Qed.
Lemma xl_load128_into_atomic c b a : atomic_fx LE (alloc (into XB) (xl_load128_fn c b a)) (load_spec LE a 16).
Proof.
  unfold xl_load128_fn. P_x86l.unfa. allocd. start f r. destruct Hin as ([_ F0] & [_ F1] & F2 & F3 & F4).
  do 3 (stp; sil). stp. rewrite F0, F2, F3, F4, Z.lxor_nilpotent.
  change (low 64 0 + 0 * 2 ^ 64) with 0. lin_at (rd LE (o_mem o2) a 16).
  { split; [reflexivity|]. destruct (Z.eqb_spec 0 (rd LE (o_mem o2) a 16)) as [E|E]; [|apply meq_refl].
    apply meq_sym, wr_rd_same; [auto|lia|]. rewrite <- E. reflexivity. }
  destruct (Z.eqb_spec 0 (rd LE (o_mem o2) a 16)) as [E|E]; cbnx.
  + do 2 (stq; xp F1; silq). stq. silq. done_q. apply some_eq. unfold join_out. cbnx. rewrite F3, F4. exact E.
  + do 2 (stq; xp F1; silq). stq. silq. done_q. apply some_eq. unfold join_out. cbnx. change (8 * 8) with 64. rewrite low_low, rd16_hi by (auto; lia). apply join_low; lia.
Qed.
Lemma xl_load128_into_contract c b a : contract LE (alloc (into XB) (xl_load128_fn c b a)).
Proof. unfold xl_load128_fn. P_x86l.unfa. allocd. contract_tac. Qed.
Lemma xl_load128_into_progress c b a x y : progress LE (alloc (into XB) (xl_load128_fn c b a)) x y 7.
Proof. unfold xl_load128_fn. P_x86l.unfa. allocd. startt f r. do 7 stt. tend. Qed.
Lemma xl_store128_into_atomic c b a v : x_w c = 64 -> 0 <= v < 2 ^ 128 -> atomic_fx LE (alloc (into XB) (xl_store128_fn c b a v)) (store_spec LE a 16 v).
Proof.
  intros Hw Hv. unfold xl_store128_fn. P_x86l.unfa. allocd.
  loop_inv 6%nat (fun f : regs => f AR7 = a /\ f XB = low 64 v /\ f XC = Z.shiftr v 64) Loop.
  { pose proof Hi as (Fd & F2 & F3). stp; sil. stp. rewrite Fd, F2, F3, pair_val by lia. br_case HE; cbnx.
    - lin_at tt; [apply meq_refl|]. stq. silq. stq. silq. done_q. reflexivity.
    - sil. stp. sil. apply weaken. apply IH; cbnx; [lts|]. auto. }
  start f r. destruct Hin as ([_ Fd] & [_ F2]). stp; sil. do 2 (stp; xp F2; sil). do 3 (stp; sil). apply weaken. apply Loop; cbnx. rewrite Hw.
  split; [auto|]. split; [apply half_lo; lia|apply half_hi; [lia|exact Hv]].
Qed.
Lemma xl_store128_into_contract c b a v : contract LE (alloc (into XB) (xl_store128_fn c b a v)).
Proof. unfold xl_store128_fn. P_x86l.unfa. allocd. contract_tac. Qed.
Lemma xl_store128_into_progress c b a v : progress LE (alloc (into XB) (xl_store128_fn c b a v)) a 16 13.
Proof.
  unfold xl_store128_fn. P_x86l.unfa. allocd.
  tinv_w 6%nat 4%nat (fun f : regs => f AR7 = a) (fun f : regs => low 64 (f XA) + f XD * 2 ^ 64) Loop.
  { Q_x86l.wide_body. }
  startt f r. destruct Hin as [[_ Fd] _]. stt. do 2 sttg. do 5 stt. rewrite Fd. tcase EE; [stt; cbn [Z.eqb]; repeat stt; tend|].
  stt. cbn [Z.eqb]. eapply T_le; [|apply (Loop _ _ _ _ d7); cbnx; auto]; [lia|].
  intros X. tzero. rewrite low_low by lia. rewrite join_low_shiftr by lia. congruence.
Qed.
Lemma xl_swap128_into_atomic c b a v : x_w c = 64 -> 0 <= v < 2 ^ 128 -> atomic_fx LE (alloc (into XB) (xl_swap128_fn c b a v)) (swap_spec LE a 16 v).
Proof.
  intros Hw Hv. unfold xl_swap128_fn. P_x86l.unfa. allocd.
  loop_inv 6%nat (fun f : regs => f AR7 = a /\ f XB = low 64 v /\ f XC = Z.shiftr v 64 /\ low (x_pw c) (f OutP) = b_out b /\ 0 <= f XA < 2 ^ 64 /\ 0 <= f XD < 2 ^ 64) Loop.
  { pose proof Hi as (Fd & F2 & F3 & Fp & Fa & FD). stp; sil. stp. rewrite Fd, F2, F3, pair_val by lia. br_case HE; cbnx.
    - lin_at (rd LE (o_mem o0) a 16). { split; [reflexivity|apply meq_refl]. }
      stq. silq. do 2 (stq; xp Fp; silq). stq. silq. done_q. apply some_eq. unfold join_out. cbnx.
      change (8 * 8) with 64. rewrite <- HE, (low_id 64 (f XD)) by auto. rewrite Z.shiftl_mul_pow2 by lia. reflexivity.
    - sil. stp. sil. apply weaken. apply IH; cbnx; [lts|]. repeat split; auto; try (apply low_range; lia); apply (hi_range 64); try lia; apply (rd_range LE _ a 16); auto; lia. }
  start f r. destruct Hin as ([_ Fd] & [_ F2] & [_ Fp]). stp; sil. do 2 (stp; xp F2; sil). do 3 (stp; sil). apply weaken. apply Loop; cbnx. rewrite Hw.
  split; [auto|]. split; [apply half_lo; lia|]. split; [apply half_hi; [lia|exact Hv]|]. split; [auto|]. split; apply (junk_hi_range 64); lia.
Qed.
Lemma xl_swap128_into_contract c b a v : contract LE (alloc (into XB) (xl_swap128_fn c b a v)).
Proof. unfold xl_swap128_fn. P_x86l.unfa. allocd. contract_tac. Qed.
Lemma xl_swap128_into_progress c b a v : progress LE (alloc (into XB) (xl_swap128_fn c b a v)) a 16 15.
Proof.
  unfold xl_swap128_fn. P_x86l.unfa. allocd.
  tinv_w 6%nat 6%nat (fun f : regs => f AR7 = a) (fun f : regs => low 64 (f XA) + f XD * 2 ^ 64) Loop.
  { Q_x86l.wide_body. }
  startt f r. destruct Hin as [[_ Fd] _]. stt. do 2 sttg. do 5 stt. rewrite Fd. tcase EE; [stt; cbn [Z.eqb]; repeat stt; tend|].
  stt. cbn [Z.eqb]. eapply T_le; [|apply (Loop _ _ _ _ d7); cbnx; auto]; [lia|].
  intros X. tzero. rewrite low_low by lia. rewrite join_low_shiftr by lia. congruence.
Qed.
Lemma xl_cas128_into_atomic c b a old new : x_w c = 64 -> 0 <= old < 2 ^ 128 -> 0 <= new < 2 ^ 128 -> atomic_fx LE (alloc (into XB) (xl_cas128_fn c b a old new)) (cas_spec LE a 16 old new).
Proof.
  intros Hw Vo Vn. unfold xl_cas128_fn. P_x86l.unfa. allocd. start f r. destruct Hin as ([_ F0] & [_ F1] & [_ F2] & [_ F3]).
  stp; sil. do 2 (stp; xp F1; sil). do 2 (stp; xp F2; sil). do 2 (stp; sil). stp. rewrite F0, Hw. change (8 * 8) with 64.
  rewrite !half_lo, !half_hi, !pair_val by (auto; lia). br_case HE; cbnx.
  - lin_at (rd LE (o_mem o6) a 16, true). { split; [reflexivity|]. cbn [fst snd]. split; [auto|apply meq_refl]. }
    stq. silq. do 2 (stq; xp F3; silq). stq. silq. done_q. rewrite sete_low by lia. apply (ret_cas_l_ok _ _ true). unfold join_out. cbnx.
    change (8 * 8) with 64. rewrite ?half_lo, ?half_hi, low_low, <- HE by (auto; lia). rewrite (low_id 64 (Z.shiftr old 64)) by (apply hi_range; [lia|exact Vo]). apply join_low; lia.
  - lin_at (rd LE (o_mem o6) a 16, false). { apply cas_fail_spec; auto. }
    stq. silq. do 2 (stq; xp F3; silq). stq. silq. done_q. rewrite sete_low by lia. apply (ret_cas_l_ok _ _ false). unfold join_out. cbnx.
    change (8 * 8) with 64. rewrite low_low, rd16_hi by (auto; lia). apply join_low; lia.
Qed.
Lemma xl_cas128_into_contract c b a old new : contract LE (alloc (into XB) (xl_cas128_fn c b a old new)).
Proof. unfold xl_cas128_fn. P_x86l.unfa. allocd. contract_tac. Qed.
Lemma xl_cas128_into_progress c b a old new x y : progress LE (alloc (into XB) (xl_cas128_fn c b a old new)) x y 12.
Proof. unfold xl_cas128_fn. P_x86l.unfa. allocd. startt f r. do 12 stt. tend. Qed.
Lemma xl_store64_into_atomic c b a v t : x_w c = 32 -> 0 <= a < 2 ^ x_pw c -> 0 <= b_val b < 2 ^ x_pw c -> 0 <= v < 2 ^ 64 ->
  atomic_fx LE (alloc (into XS) (xl_store64_fn c b a v t)) (store_spec LE a 8 v).
Proof.
  intros Hw Ha Hb Hv. assert (LB : low (x_pw c) (b_val b) = b_val b) by now apply low_id.
  unfold xl_store64_fn. destruct (xl_wide c); P_x86l.unfa; allocd.
  - start f r. destruct Hin as [F1 F2]. stp. rewrite ?F2, ?LB, Z.eqb_refl. sil. stp; sil. stp. rewrite F1, (low_id _ a), Z.add_0_r by auto.
    lin_at tt; [apply meq_refl|]. stq; silq; done_q; reflexivity.
  - start f r. destruct Hin as [F1 F2]. stp; sil. stp. rewrite ?F2, ?LB, Z.eqb_refl. sil. stp; sil. stp. rewrite F1, (low_id _ a), Z.add_0_r by auto.
    lin_at tt; [rewrite Z.lxor_nilpotent, shiftl_zero_hi, Z.add_0_r; apply meq_refl|]. stq; silq; done_q; reflexivity.
  - loop_inv 5%nat (fun f : regs => f AR7 = a /\ f XB = low 32 v /\ f XC = Z.shiftr v 32) Loop.
    { pose proof Hi as (Fd & F2 & F3). stp; sil. stp. rewrite Fd, F2, F3, pair_val by lia. br_case HE; cbnx.
      - lin_at tt; [apply meq_refl|]. stq. silq. done_q. reflexivity.
      - sil. stp. sil. apply weaken. apply IH; cbnx; [lts|]. auto. }
    start f r. destruct Hin as (Fd & F2). stp. rewrite ?F2, ?LB, Z.eqb_refl. sil. stp. rewrite ?F2, ?LB, Z.eqb_refl. sil. do 3 (stp; sil). apply weaken. apply Loop; cbnx.
    rewrite Fd, (low_id _ a), Hw by auto. split; [auto|]. split; [apply half_lo; lia|apply half_hi; [lia|exact Hv]].
  - loop_inv 5%nat (fun f : regs => f AR7 = a /\ f XB = low 32 v /\ f XC = Z.shiftr v 32) Loop.
    { pose proof Hi as (Fd & F2 & F3). stp; sil. stp. rewrite Fd, F2, F3, pair_val by lia. br_case HE; cbnx.
      - lin_at tt; [apply meq_refl|]. stq. silq. done_q. reflexivity.
      - sil. stp. sil. apply weaken. apply IH; cbnx; [lts|]. auto. }
    start f r. destruct Hin as (Fd & F2). stp. rewrite ?F2, ?LB, Z.eqb_refl. sil. stp. rewrite ?F2, ?LB, Z.eqb_refl. sil. do 3 (stp; sil). apply weaken. apply Loop; cbnx.
    rewrite Fd, (low_id _ a), Hw by auto. split; [auto|]. split; [apply half_lo; lia|apply half_hi; [lia|exact Hv]].
Qed.
Lemma xl_store64_into_contract c b a v t : contract LE (alloc (into XS) (xl_store64_fn c b a v t)).
Proof. unfold xl_store64_fn. destruct (xl_wide c); P_x86l.unfa; allocd; contract_tac. Qed.
Lemma xl_store64_into_progress c b a v t : 0 <= a < 2 ^ x_pw c -> progress LE (alloc (into XS) (xl_store64_fn c b a v t)) a 8 11.
Proof.
  intros Ha. unfold xl_store64_fn. destruct (xl_wide c); P_x86l.unfa; allocd; [startt f r; tline|startt f r; tline| |].
  all: tinv_w 5%nat 3%nat (fun f : regs => f AR7 = a) (fun f : regs => low 32 (f XA) + f XD * 2 ^ 32) Loop; [Q_x86l.wide_body|].
  all: startt f r; destruct Hin as [Fd _]; do 2 sttg; do 5 stt; rewrite Fd, (low_id _ a) by auto; tcase EE; [stt; cbn [Z.eqb]; tend|].
  all: stt; cbn [Z.eqb]; eapply T_le; [|apply (Loop _ _ _ _ d6); cbnx; auto; rewrite ?Fd, ?(low_id _ a) by auto; auto]; [lia|].
  all: intros X; tzero; rewrite low_low by lia; rewrite join_low_shiftr by lia; congruence.
Qed.
