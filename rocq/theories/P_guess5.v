(* C30 for arm_linux. *)
From Verif Require Import Sym Guess Sub32 Wide P_arm Arch_arm_linux P_arm_linux P_guess3.
Ltac gs := unfold guessed; cbn [mov li and_ or_ xor_ andn_ beq_ bne_ beqz_ bnez_ guess_instr map f_prog f_in f_out f_clob any_loaded].
Ltac ll32 := change (8 * 4) with 32; rewrite low_low by lia.
Lemma al_swap_guess e a v : atomic_fn e (guessed (al_swap_fn a v)) (swap_spec e a 4 v).
Proof.
  unfold al_swap_fn. unfl. gs.
  loop_inv 0%nat (fun f : regs => f Dst = a /\ opnd 32 32 v (f AR1)) Loop.
  { destruct Hi as [Fd Fv]. do 3 (stp; sil). stp. rewrite Fd. ll32. ks HE.
    - lin_at (rd e (o_mem o2) a 4). { split; [reflexivity|]. eapply (wr_opnd e _ a 4); eauto; lia. }
      stq; silq. done_q. ll32. now rewrite <- HE.
    - sil. stp; sil. apply weaken. apply IH; cbnx; [lts|auto]. }
  start f r. apply Loop. exact Hin.
Qed.
Lemma al_swap_sub_guess e n a v : n = 1 \/ n = 2 -> 0 <= a < 2 ^ 32 -> a mod n = 0 -> 0 <= v < 2 ^ (8 * n) ->
  atomic_fn e (guessed (al_swap_sub_fn e n a v)) (swap_spec e a n v).
Proof.
  intros Hn Ha Hal Hv. unfold al_swap_sub_fn.
  destruct (create_sub_word_mask_values A_arm e 32 32 n a) as [[dst shift] mask] eqn:E. subw_m E Hin_w Hs Hm Hr.
  unfl. gs. set (s := field_pos e n a) in *. pose proof (low32_of n v Hn Hv) as Lv.
  loop_inv 1%nat (fun f : regs => f Dst = dst /\ f Shift = shift /\ f MaskN = not32 mask /\ f Val = shl32 v s) Loop.
  { pose proof Hi as (Fd & Fs & Fm & Fv). do 5 (stp; sil). stp. rewrite Fd. ll32. ks HE.
    - lin_at (rd e (o_mem o4) a n).
      { split; [reflexivity|]. eapply wr_field; eauto. change (8 * 4) with 32. rewrite Fm, Fv, Hm.
        rewrite <- HE; rewrite land_not32 by (try apply rdw_range; auto; apply (sub_mask_range e n a dst s Hin_w)).
        apply (sub_merge e n a dst s Hin_w); auto. }
      do 2 (stq; silq). done_q. change (8 * 4) with 32. rewrite Fs, Hs, lsr_eq by lia. rewrite <- HE. apply some_eq. apply (sub_out e n a dst s); auto.
    - sil. stp; sil. apply weaken. apply IH; cbnx; [lts|auto]. }
  start f r. destruct Hin as (Fd & Fs & Fm & Fv). stp; sil. apply weaken. apply Loop; cbnx.
  rewrite Fv, Fs, Hs, lsl_eq by lia. rewrite Hs in Fs. auto.
Qed.
Lemma al_load64_guess e po a : atomic_fn e (guessed (al_load64_fn e po a)) (load_spec e a 8).
Proof.
  unfold al_load64_fn. unfl. gs.
  loop_inv 0%nat (fun f : regs => f Dst = a /\ f AR1 = po) Loop.
  { destruct Hi as [Fd Fp]. do 6 (stp; sil). stp. rewrite Fd. deref. ks HE.
    - lin_at (rd e (o_mem o5) a 8). { split; [reflexivity|]. rewrite <- HE. apply meq_sym, (wr_back e _ a 8); auto; lia. }
      stq; silq. done_q. now rewrite HE.
    - sil. stp; sil. apply weaken. apply IH; cbnx; [lts|auto]. }
  start f r. apply Loop. exact Hin.
Qed.
Lemma al_store64_guess e po a v : atomic_fn e (guessed (al_store64_fn e po a v)) (store_spec e a 8 v).
Proof.
  unfold al_store64_fn. unfl. gs.
  loop_inv 0%nat (fun f : regs => f Dst = a /\ f Out = po /\ f AR1 <> po /\ al_buf e v f) Loop.
  { destruct Hi as (Fd & Fp & Fq & Fb). do 6 (stp; sil). stp. rewrite Fd. deref. other. ks HE.
    - lin_at tt. { red. rewrite (al_half e v) by auto. apply meq_refl. }
      stq; silq. done_q. reflexivity.
    - sil. stp; sil. apply weaken. apply IH; cbnx; [lts|auto]. }
  start f r. apply Loop. exact Hin.
Qed.
Lemma al_swap64_guess e po a v : atomic_fn e (guessed (al_swap64_fn e po a v)) (swap_spec e a 8 v).
Proof.
  unfold al_swap64_fn. unfl. gs.
  loop_inv 0%nat (fun f : regs => f Dst = a /\ f Out = po /\ f AR1 <> po /\ al_buf e v f) Loop.
  { destruct Hi as (Fd & Fp & Fq & Fb). do 6 (stp; sil). stp. rewrite Fd. deref. other. ks HE.
    - lin_at (rd e (o_mem o5) a 8). { split; [reflexivity|]. rewrite (al_half e v) by auto. apply meq_refl. }
      stq; silq. done_q. now rewrite HE.
    - sil. stp; sil. apply weaken. apply IH; cbnx; [lts|auto]. }
  start f r. apply Loop. exact Hin.
Qed.
Theorem al_store_guess e po n o a v f : al_store e po n o a v = Impl f -> atomic_fn e (guessed f) (store_spec e a n v).
Proof.
  unfold al_store. disp.
  - destruct (ar_sizes n E). rewrite guess_none; [apply fx_atomic, al_store_fn_atomic; auto|]. match goal with t : (fence * fence)%type |- _ => destruct t end; reflexivity.
  - beqs. subst n. apply al_store64_guess.
Qed.
Theorem al_swap_all_guess e po n o a v f : 0 <= a < 2 ^ 32 -> a mod n = 0 -> 0 <= v < 2 ^ (8 * n) ->
  al_swap e po n o a v = Impl f -> atomic_fn e (guessed f) (swap_spec e a n v).
Proof.
  intros Ha Hal Hv. unfold al_swap. disp.
  - apply al_swap_sub_guess; auto using al_sub_n.
  - beqs. subst n. apply al_swap_guess.
  - beqs. subst n. apply al_swap64_guess.
Qed.
