(* C30 for s390x. *)
From Verif Require Import Sym Guess Fields Arch_s390x P_s390x.
Ltac gs := unfold guessed; cbn [mov li and_ or_ xor_ andn_ beq_ bne_ beqz_ bnez_ guess_instr map f_prog f_in f_out f_clob any_loaded].
Lemma sz_swap_guess n a v : 0 < n -> 8 * n <= 64 -> atomic_fn BE (guessed (sz_swap_fn n a v)) (swap_spec BE a n v).
Proof.
  intros Hn Hw. unfold sz_swap_fn. unfa. gs.
  loop_inv 1%nat (fun f : regs => f Dst = a /\ opnd 64 (8 * n) v (f Val)) Loop.
  { pose proof Hi as [Fd Fv]. go. stp. rewrite Fd. br_case HE; cbnx.
    - lin_at (rd BE (o_mem o0) a n). { split; [reflexivity|]. eapply wr_opnd; eauto; lia. }
      stq. silq. done_q. f_equal. exact HE.
    - sil. stp. sil. apply weaken. apply IH; cbnx; auto; lts. }
  start f r. stp. sil. apply weaken. apply Loop. auto.
Qed.
Lemma sz_swap128_guess a v : atomic_fn BE (guessed (sz_swap128_fn a v)) (swap_spec BE a 16 v).
Proof.
  unfold sz_swap128_fn. unfa. gs.
  loop_inv 2%nat (fun f : regs => f Dst = a /\ 0 <= f AR1 < 2 ^ 64 /\ f AR2 = pair_hi A_s390x BE 64 v /\ f AR3 = pair_lo A_s390x BE 64 v) Loop.
  { pose proof Hi as (Fd & Fr & F2 & F3). go. stp. rewrite Fd. br_case HE; cbnx.
    - lin_at (rd BE (o_mem o0) a 16).
      { split; [reflexivity|]. rewrite F2, F3. unfold pair_hi, pair_lo. cbn [hi_first_sig pair_lo_first Bool.eqb].
        rewrite low_low by lia. rewrite join_low_shiftr by lia. apply meq_refl. }
      stq. silq. done_q. f_equal. rewrite low_id in HE by auto. exact HE.
    - sil. stp. sil. apply weaken. apply IH; cbnx; [lts|]. repeat split; auto; apply low_range; lia. }
  start f r. destruct Hin as (Fd & F2 & F3). do 2 (stp; sil). apply weaken. apply Loop; cbnx.
  split; [exact Fd|]. split; [|auto]. apply low_range; lia.
Qed.
Lemma sz_swap_sub_guess n a v : n = 1 \/ n = 2 -> 0 <= a < 2 ^ 64 -> a mod n = 0 -> 0 <= v < 2 ^ (8 * n) ->
  atomic_fn BE (guessed (sz_swap_sub_fn n a v)) (swap_spec BE a n v).
Proof.
  intros Hn Ha Hal Hv. unfold sz_swap_sub_fn.
  destruct (create_sub_word_mask_values A_s390x BE 64 32 n a) as [[dst shift] mask] eqn:E.
  apply sub_word_ok_s390x in E; try lia.
  unfa. gs. destruct E as (Ed & _ & _ & Hin_w & Hs & _).
  pose proof (in_word_range _ _ _ _ _ _ Hin_w) as (Hs0 & Hs1 & Hn0).
  pose proof (Z.mod_pos_bound a 4 ltac:(lia)) as Hp. cbn [field_pos] in *. set (p := a mod 4) in *.
  assert (p + n <= 4) as Hpn by lia.
  set (s := 8 * (4 - n - p)) in *.
  assert (shift mod 32 = (8 * p) mod 32) as Hs'. { rewrite Hs. symmetry. apply Z.mod_small. lia. }
  loop_inv 1%nat (fun f : regs => f Dst = dst /\ opnd 64 (8 * n) v (f Val) /\ opnd 64 32 shift (f Shift) /\
      opnd 64 32 (low 32 (- shift)) (f ShiftC)) Loop.
  { pose proof Hi as (Fd & [Fvr Fv] & [_ Fs] & [_ Fc]).
    do 4 (stp; sil). stp. rewrite Fd. change (8 * 4) with 32. br_case HE; cbnx.
    - pose proof (rd4_range (o_mem o3) dst Ho3) as HW.
      lin_at (rd BE (o_mem o3) a n).
      { split; [reflexivity|]. eapply wr_field; eauto.
        eapply field_set_ext; [intros b Hb; apply (junk_hi_bits 64 32); lia|].
        rewrite HE.
        eapply (sz_swap_word n p s Hn ltac:(lia) Hpn eq_refl (rd BE (o_mem o3) dst 4) (f Val) v); [auto| | |auto|auto|reflexivity].
        - rewrite <- Hs'. rewrite (shift_low_mod (f Shift) shift Fs 0). f_equal; lia.
        - rewrite (neg_shift_mod (f ShiftC) shift Fc 0). rewrite <- (Z.sub_0_l (8 * p)). rewrite Zminus_mod, Hs', <- Zminus_mod. reflexivity. }
      stq. silq. stq. silq. done_q. f_equal. rewrite junk_hi_low by lia. rewrite HE.
      rewrite (sz_out n p s Hn ltac:(lia) Hpn eq_refl); auto.
      + apply (rd_field BE 4 dst a n s); auto.
      + rewrite (shift_low_mod (f Shift) shift Fs). rewrite <- Z.add_mod_idemp_r, Hs', Z.add_mod_idemp_r by lia. reflexivity.
    - sil. stp. sil. apply weaken. apply IH; cbnx; [lts|]. repeat split; auto; try tauto; apply Hi. }
  start f r. stp. sil. apply weaken. apply Loop; cbnx. exact Hin.
Qed.
Theorem sz_store_guess c n o a v f : sz_store c n o a v = Impl f -> guessed f = f.
Proof. unfold sz_store. disp; apply guess_none; reflexivity. Qed.
Theorem sz_swap_all_guess c n o a v f : 0 <= a < 2 ^ 64 -> a mod n = 0 -> 0 <= v < 2 ^ (8 * n) ->
  sz_swap c n o a v = Impl f -> atomic_fn BE (guessed f) (swap_spec BE a n v).
Proof.
  intros Ha Hal Hv. unfold sz_swap. disp.
  - destruct (sz_sizes n); [now rewrite E|]. apply sz_swap_guess; auto.
  - apply sz_sub_n in E0. apply sz_swap_sub_guess; auto.
  - beqs. subst n. apply sz_swap128_guess.
Qed.
