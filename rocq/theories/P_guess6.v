(* C30 for arch_legacy/x86.rs and arch_legacy/arm_linux.rs. *)
From Verif Require Import Sym Guess Fields UtilsProofs Sub32 Arch_x86 P_x86 Arch_x86l P_x86l.
Ltac gno := unfold xl_store_fn, xl_swap_fn; repeat match goal with |- context [match ?x with _ => _ end] => destruct x end; reflexivity.
Ltac gs := unfold guessed; cbn [mov li and_ or_ xor_ andn_ beq_ bne_ beqz_ bnez_ guess_instr map f_prog f_in f_out f_clob any_loaded].
Lemma xl_store64_guess c b a v t : x_w c = 32 -> 0 <= a < 2 ^ x_pw c -> 0 <= b_val b < 2 ^ x_pw c -> 0 <= v < 2 ^ 64 ->
  atomic_fn LE (guessed (xl_store64_fn c b a v t)) (store_spec LE a 8 v).
Proof.
  intros Hw Ha Hb Hv. assert (LB : low (x_pw c) (b_val b) = b_val b) by now apply low_id.
  unfold xl_store64_fn. destruct (xl_wide c); unfa; gs.
  - start f r. destruct Hin as [F1 F2]. stp. rewrite ?F2, ?LB, Z.eqb_refl. sil. stp; sil. stp. rewrite F1, (low_id _ a), Z.add_0_r by auto.
    lin_at tt; [apply meq_refl|]. stq; silq; done_q; reflexivity.
  - start f r. destruct Hin as [F1 F2]. stp; sil. stp. rewrite ?F2, ?LB, Z.eqb_refl. sil. stp; sil. stp. rewrite F1, (low_id _ a), Z.add_0_r by auto.
    lin_at tt; [rewrite Z.lxor_nilpotent, shiftl_zero_hi, Z.add_0_r; apply meq_refl|]. stq; silq; done_q; reflexivity.
  - loop_inv 5%nat (fun f : regs => f AR7 = a /\ f XB = low 32 v /\ f XC = Z.shiftr v 32) Loop.
    { pose proof Hi as (Fd & F2 & F3). stp; sil. stp. rewrite Fd, F2, F3, pair_val by lia. br_case HE; cbnx.
      - lin_at tt; [apply meq_refl|]. stq. silq. done_q. reflexivity.
      - sil. stp. sil. apply weaken. apply IH; cbnx; [lts|]. auto. }
    start f r. destruct Hin as (Fd & F2). stp. rewrite ?F2, ?LB, Z.eqb_refl. sil. stp. rewrite ?F2, ?LB, Z.eqb_refl. sil. do 3 (stp; sil). apply weaken. apply Loop; cbnx.
    rewrite Fd, (low_id _ a), Hw by auto. split; [auto|]. split; [apply half_lo; lia|apply half_hi; [lia|exact Hv]].
  - loop_inv 5%nat (fun f : regs => f AR7 = a /\ f XB = low 32 v /\ f XC = Z.shiftr v 32) Loop.
    { pose proof Hi as (Fd & F2 & F3). stp; sil. stp. rewrite Fd, F2, F3, pair_val by lia. br_case HE; cbnx.
      - lin_at tt; [apply meq_refl|]. stq. silq. done_q. reflexivity.
      - sil. stp. sil. apply weaken. apply IH; cbnx; [lts|]. auto. }
    start f r. destruct Hin as (Fd & F2). stp. rewrite ?F2, ?LB, Z.eqb_refl. sil. stp. rewrite ?F2, ?LB, Z.eqb_refl. sil. do 3 (stp; sil). apply weaken. apply Loop; cbnx.
    rewrite Fd, (low_id _ a), Hw by auto. split; [auto|]. split; [apply half_lo; lia|apply half_hi; [lia|exact Hv]].
Qed.
Lemma xl_swap64_guess c b a v : x_w c = 32 -> 0 <= a < 2 ^ x_pw c -> 0 <= b_val b < 2 ^ x_pw c -> 0 <= b_out b < 2 ^ x_pw c -> 0 <= v < 2 ^ 64 ->
  atomic_fn LE (guessed (xl_swap64_fn c b a v)) (swap_spec LE a 8 v).
Proof.
  intros Hw Ha Hb Hp Hv. assert (LB : low (x_pw c) (b_val b) = b_val b) by now apply low_id. assert (LO : low (x_pw c) (b_out b) = b_out b) by now apply low_id.
  unfold xl_swap64_fn. unfa. gs.
  loop_inv 6%nat (fun f : regs => f AR7 = a /\ f XB = low 32 v /\ f XC = Z.shiftr v 32 /\ f XS = b_out b /\ 0 <= f XA < 2 ^ 32 /\ 0 <= f XD < 2 ^ 32) Loop.
  { pose proof Hi as (Fd & F2 & F3 & F4 & Fa & FD). stp; sil. stp. rewrite Fd, F2, F3, pair_val by lia. br_case HE; cbnx.
    - lin_at (rd LE (o_mem o0) a 8). { split; [reflexivity|apply meq_refl]. }
      stq. silq. stq. rewrite ?F4, ?LO, Z.eqb_refl. silq. stq. rewrite ?F4, ?LO, Z.eqb_refl. silq. stq. silq. done_q. apply some_eq. unfold join_out. cbnx.
      change (8 * 4) with 32. rewrite <- HE, (low_id 32 (f XD)) by auto. rewrite Z.shiftl_mul_pow2 by lia. reflexivity.
    - sil. stp. sil. apply weaken. apply IH; cbnx; [lts|]. repeat split; auto; try (apply low_range; lia); apply (hi_range 32); try lia; apply (rd_range LE _ a 8); auto; lia. }
  start f r. destruct Hin as (Fd & F2 & F3). stp; sil. stp. rewrite ?F2, ?LB, Z.eqb_refl. sil. stp. rewrite ?F2, ?LB, Z.eqb_refl. sil. do 3 (stp; sil). apply weaken. apply Loop; cbnx.
  rewrite Fd, F3, (low_id _ a), Hw by auto. split; [auto|]. split; [apply half_lo; lia|]. split; [apply half_hi; [lia|exact Hv]|].
  split; [auto|]. split; apply low_range; lia.
Qed.
Lemma xl_store128_guess c b a v : x_w c = 64 -> 0 <= v < 2 ^ 128 -> atomic_fn LE (guessed (xl_store128_fn c b a v)) (store_spec LE a 16 v).
Proof.
  intros Hw Hv. unfold xl_store128_fn. unfa. gs.
  loop_inv 6%nat (fun f : regs => f AR7 = a /\ f XB = low 64 v /\ f XC = Z.shiftr v 64) Loop.
  { pose proof Hi as (Fd & F2 & F3). stp; sil. stp. rewrite Fd, F2, F3, pair_val by lia. br_case HE; cbnx.
    - lin_at tt; [apply meq_refl|]. stq. silq. stq. silq. done_q. reflexivity.
    - sil. stp. sil. apply weaken. apply IH; cbnx; [lts|]. auto. }
  start f r. destruct Hin as ([_ Fd] & [_ F2]). stp; sil. do 2 (stp; xp F2; sil). do 3 (stp; sil). apply weaken. apply Loop; cbnx. rewrite Hw.
  split; [auto|]. split; [apply half_lo; lia|apply half_hi; [lia|exact Hv]].
Qed.
Lemma xl_swap128_guess c b a v : x_w c = 64 -> 0 <= v < 2 ^ 128 -> atomic_fn LE (guessed (xl_swap128_fn c b a v)) (swap_spec LE a 16 v).
Proof.
  intros Hw Hv. unfold xl_swap128_fn. unfa. gs.
  loop_inv 6%nat (fun f : regs => f AR7 = a /\ f XB = low 64 v /\ f XC = Z.shiftr v 64 /\ low (x_pw c) (f OutP) = b_out b /\ 0 <= f XA < 2 ^ 64 /\ 0 <= f XD < 2 ^ 64) Loop.
  { pose proof Hi as (Fd & F2 & F3 & Fp & Fa & FD). stp; sil. stp. rewrite Fd, F2, F3, pair_val by lia. br_case HE; cbnx.
    - lin_at (rd LE (o_mem o0) a 16). { split; [reflexivity|apply meq_refl]. }
      stq. silq. do 2 (stq; xp Fp; silq). stq. silq. done_q. apply some_eq. unfold join_out. cbnx.
      change (8 * 8) with 64. rewrite <- HE, (low_id 64 (f XD)) by auto. rewrite Z.shiftl_mul_pow2 by lia. reflexivity.
    - sil. stp. sil. apply weaken. apply IH; cbnx; [lts|]. repeat split; auto; try (apply low_range; lia); apply (hi_range 64); try lia; apply (rd_range LE _ a 16); auto; lia. }
  start f r. destruct Hin as ([_ Fd] & [_ F2] & [_ Fp]). stp; sil. do 2 (stp; xp F2; sil). do 3 (stp; sil). apply weaken. apply Loop; cbnx. rewrite Hw.
  split; [auto|]. split; [apply half_lo; lia|]. split; [apply half_hi; [lia|exact Hv]|]. split; [auto|]. split; apply low_range; lia.
Qed.
Theorem xl_store_all_guess c b n o a v f : x_wf c -> bufs_ok (x_pw c) b -> 0 <= a < 2 ^ x_pw c -> 0 <= v < 2 ^ (8 * n) ->
  xl_store c b n o a v = Impl f -> atomic_fn LE (guessed f) (store_spec LE a n v).
Proof.
  intros Hc (B1 & B2 & B3 & B4) Ha Hv. unfold xl_store.
  destruct (x_word c n) eqn:E; [|destruct (x_dw c n) eqn:E0; [|destruct (x_qw c n) eqn:E1]].
  - destruct (x_sizes c n Hc E). disp. rewrite guess_none; [apply fx_atomic, xl_store_fn_atomic|gno]; auto.
  - destruct (x_dw_w c n E0) as [-> Hw].
    destruct (xl_wide c) eqn:W; disp; apply xl_store64_guess; auto.
  - destruct (x_qw_w c n E1) as [-> Hw]. disp. apply xl_store128_guess; auto.
  - discriminate.
Qed.
Theorem xl_swap_all_guess c b n o a v f : x_wf c -> bufs_ok (x_pw c) b -> 0 <= a < 2 ^ x_pw c -> 0 <= v < 2 ^ (8 * n) ->
  xl_swap c b n o a v = Impl f -> atomic_fn LE (guessed f) (swap_spec LE a n v).
Proof.
  intros Hc (B1 & B2 & B3 & B4) Ha Hv. unfold xl_swap. disp.
  - destruct (x_sizes c n Hc E). rewrite guess_none; [apply fx_atomic, xl_swap_fn_atomic|gno]; auto.
  - destruct (x_dw_w c n E0) as [-> Hw]. apply xl_swap64_guess; auto.
  - destruct (x_qw_w c n E1) as [-> Hw]. apply xl_swap128_guess; auto.
Qed.
