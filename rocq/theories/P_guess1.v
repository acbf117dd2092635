(* C30 for x86, s390x, m68k. *)
From Verif Require Import Sym Guess Fields UtilsProofs Sub32 Arch_x86 P_x86.

Ltac gs := unfold guessed; cbn [mov li and_ or_ xor_ andn_ beq_ bne_ beqz_ bnez_ guess_instr map f_prog f_in f_out f_clob any_loaded].
Lemma x_store64_guess c a v t : x_w c = 32 -> 0 <= a < 2 ^ x_pw c -> 0 <= v < 2 ^ 64 -> atomic_fn LE (guessed (x_store64_fn c a v t)) (store_spec LE a 8 v).
Proof.
  intros Hw Ha Hv. pose proof (x_store64_fn_atomic c a v t Hw Ha Hv) as H. unfold x_store64_fn in *. destruct (x_store_wide c); [exact (fx_atomic _ _ _ H)..|]. clear H. unfa. gs.
  loop_inv 3%nat (fun f : regs => f AR7 = a /\ 0 <= f XA < 2 ^ 32 /\ f XB = pair_lo A_x86 LE 32 v /\ f XC = pair_hi A_x86 LE 32 v) Loop.
    { pose proof Hi as (Fd & Fr & F2 & F3). stp; sil. stp. rewrite Fd, F2, F3, x_pair_lo by lia. br_case HE; cbnx.
      - lin_at tt; [apply meq_refl|]. stq. silq. done_q. reflexivity.
      - sil. stp. sil. apply weaken. apply IH; cbnx; [lts|]. repeat split; auto; apply low_range; lia. }
    start f r. destruct Hin as (Fd & F2 & F3). do 3 (stp; sil). apply weaken. apply Loop; cbnx.
    rewrite Fd, (low_id _ a) by auto. split; [auto|]. split; [|auto]. rewrite Hw. apply low_range; lia.
Qed.
Lemma x_swap64_guess c a v : x_w c = 32 -> 0 <= a < 2 ^ x_pw c -> atomic_fn LE (guessed (x_swap64_fn c a v)) (swap_spec LE a 8 v).
Proof.
  intros Hw Ha. unfold x_swap64_fn. unfa. gs.
  loop_inv 3%nat (fun f : regs => f AR7 = a /\ 0 <= f XA < 2 ^ 32 /\ f XB = pair_lo A_x86 LE 32 v /\ f XC = pair_hi A_x86 LE 32 v) Loop.
  { pose proof Hi as (Fd & Fr & F2 & F3). stp; sil. stp. rewrite Fd, F2, F3, x_pair_lo by lia. br_case HE; cbnx.
    - lin_at (rd LE (o_mem o0) a 8). { split; [reflexivity|apply meq_refl]. }
      stq. silq. done_q. apply some_eq. apply x_pair_eq; auto; lia.
    - sil. stp. sil. apply weaken. apply IH; cbnx; [lts|]. repeat split; auto; apply low_range; lia. }
  start f r. destruct Hin as (Fd & F2 & F3). do 3 (stp; sil). apply weaken. apply Loop; cbnx.
  rewrite Fd, (low_id _ a) by auto. split; [auto|]. split; [|auto]. rewrite Hw. apply low_range; lia.
Qed.
Lemma x_store128_guess c a v : x_w c = 64 -> atomic_fn LE (guessed (x_store128_fn c a v)) (store_spec LE a 16 v).
Proof.
  intros Hw. unfold x_store128_fn, x_wide128. unfa. gs.
  loop_inv 4%nat (fun f : regs => f AR7 = a /\ f XB = pair_lo A_x86_64 LE 64 v /\ f XC = pair_hi A_x86_64 LE 64 v) Loop.
    { pose proof Hi as (Fd & F2 & F3). stp; sil. stp. rewrite Fd, F2, F3, x_pair_lo by lia. br_case HE; cbnx.
      - lin_at tt; [apply meq_refl|]. stq. silq. stq. silq. done_q. reflexivity.
      - sil. stp. sil. apply weaken. apply IH; cbnx; [lts|]. auto. }
  start f r. destruct Hin as ([_ Fd] & F2 & F3). do 4 (stp; sil). apply weaken. apply Loop; cbnx. auto.
Qed.
Lemma x_swap128_guess c a v : x_w c = 64 -> atomic_fn LE (guessed (x_swap128_fn c a v)) (swap_spec LE a 16 v).
Proof.
  intros Hw. unfold x_swap128_fn, x_wide128. unfa. gs.
  loop_inv 4%nat (fun f : regs => f AR7 = a /\ 0 <= f XA < 2 ^ 64 /\ f XB = pair_lo A_x86_64 LE 64 v /\ f XC = pair_hi A_x86_64 LE 64 v) Loop.
  { pose proof Hi as (Fd & Fr & F2 & F3). stp; sil. stp. rewrite Fd, F2, F3, x_pair_lo by lia. br_case HE; cbnx.
    - lin_at (rd LE (o_mem o0) a 16). { split; [reflexivity|apply meq_refl]. }
      stq. silq. stq. silq. done_q. apply some_eq. apply x_pair_eq; auto; lia.
    - sil. stp. sil. apply weaken. apply IH; cbnx; [lts|]. repeat split; auto; apply low_range; lia. }
  start f r. destruct Hin as ([_ Fd] & F2 & F3). do 4 (stp; sil). apply weaken. apply Loop; cbnx.
  split; [auto|]. split; [|auto]. rewrite Hw. apply low_range; lia.
Qed.
Theorem x_store_guess c n o a v f : x_wf c -> 0 <= a < 2 ^ x_pw c -> 0 <= v < 2 ^ (8 * n) ->
  x_store c n o a v = Impl f -> atomic_fn LE (guessed f) (store_spec LE a n v).
Proof.
  intros Hc Ha Hv. unfold x_store.
  destruct (x_word c n) eqn:E; [|destruct (x_dw c n) eqn:E0; [|destruct (x_qw c n) eqn:E1]].
  - destruct (x_sizes c n Hc E). disp. rewrite guess_none; [apply fx_atomic, x_store_fn_atomic; auto|]. unfold x_store_fn. repeat match goal with |- context [match ?x with _ => _ end] => destruct x end; reflexivity.
  - destruct (x_dw_w c n E0) as [-> Hw].
    destruct (x_store_wide c) eqn:W; disp; apply x_store64_guess; auto.
  - destruct (x_qw_w c n E1) as [-> Hw]. disp. apply x_store128_guess; auto.
  - discriminate.
Qed.
Theorem x_swap_guess c n o a v f : x_wf c -> 0 <= a < 2 ^ x_pw c ->
  x_swap c n o a v = Impl f -> atomic_fn LE (guessed f) (swap_spec LE a n v).
Proof.
  intros Hc Ha. unfold x_swap. disp.
  - destruct (x_sizes c n Hc E). rewrite guess_none; [apply fx_atomic, x_swap_fn_atomic; auto|reflexivity].
  - destruct (x_dw_w c n E0) as [-> Hw]. apply x_swap64_guess; auto.
  - destruct (x_qw_w c n E1) as [-> Hw]. apply x_swap128_guess; auto.
Qed.
