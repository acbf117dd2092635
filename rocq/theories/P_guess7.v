(* C30 for arch_legacy/arm_linux.rs. *)
From Verif Require Import Sym Guess Sub32 Wide P_arm Arch_arm_linux P_arm_linux P_guess3 P_legacy P_arml Arch_arm_linuxl P_arm_linuxl.
Ltac gs := unfold guessed; cbn [mov li and_ or_ xor_ andn_ beq_ bne_ beqz_ bnez_ guess_instr map f_prog f_in f_out f_clob any_loaded].
Ltac ll32 := change (8 * 4) with 32; rewrite low_low by lia.
Lemma alg_swap_guess e b a v : atomic_fn e (guessed (alg_swap_fn b a v)) (swap_spec e a 4 v).
Proof.
  unfold alg_swap_fn. unfl. gs.
  loop_inv 1%nat (fun f : regs => f Dst = a /\ f AR1 = v /\ f OutP = b_out b) Loop.
  { destruct Hi as (Fd & Fv & Fo). do 3 (stp; sil). stp. rewrite Fd. ll32. ks HE.
    - lin_at (rd e (o_mem o2) a 4). { split; [reflexivity|]. rewrite Fv. apply meq_refl. }
      gop Fo. done_q. change (8 * 4) with 32. rewrite <- HE. rewrite low32_rd by auto. reflexivity.
    - sil. kback. apply weaken. apply IH; cbnx; [lts|auto]. }
  start f r. destruct Hin as (Ha & Hv & Fo). stp. priv Hv. sil. apply weaken. apply Loop. cbnx. auto.
Qed.
Lemma alg_swap_sub_guess e b n a v : n = 1 \/ n = 2 -> 0 <= a < 2 ^ 32 -> a mod n = 0 -> 0 <= v < 2 ^ (8 * n) ->
  atomic_fn e (guessed (alg_swap_sub_fn e b n a v)) (swap_spec e a n v).
Proof.
  intros Hn Ha Hal Hv. unfold alg_swap_sub_fn.
  destruct (create_sub_word_mask_values A_arm e 32 32 n a) as [[dst shift] mask] eqn:E. subw_m E Hin_w Hs Hm Hr.
  unfl. gs. set (s := field_pos e n a) in *. pose proof (low32_of n v Hn Hv) as Lv.
  loop_inv 3%nat (fun f : regs => f Dst = dst /\ f Shift = shift /\ f MaskN = not32 mask /\ f Val = shl32 v s /\ f OutP = b_out b) Loop.
  { pose proof Hi as (Fd & Fs & Fm & Fv & Fp). do 5 (stp; sil). stp. rewrite Fd. ll32. ks HE.
    - lin_at (rd e (o_mem o4) a n).
      { split; [reflexivity|]. eapply wr_field; eauto. change (8 * 4) with 32. rewrite Fm, Fv, Hm, <- HE.
        rewrite land_not32 by (try apply rdw_range; auto; apply (sub_mask_range e n a dst s Hin_w)).
        apply (sub_merge e n a dst s Hin_w); auto. }
      gop Fp. done_q. change (8 * 4) with 32. rewrite Fs, Hs, lsr_eq by lia. rewrite <- HE. apply some_eq. apply (sub_out e n a dst s); auto.
    - sil. kback. apply weaken. apply IH; cbnx; [lts|auto]. }
  start f r. destruct Hin as (Fd & Fs & Fk & Fm & Fv & Fp). stp. priv Fv. sil. do 2 (stp; sil). apply weaken. apply Loop; cbnx.
  rewrite Fs, Fk, Hs, Hm, lsl_eq, (all_mask e n a dst s) by (auto; lia). rewrite Hs in Fs. rewrite Hm in Fm. auto.
Qed.
Lemma alg_load64_guess e b a : atomic_fn e (guessed (alg_load64_fn e b a)) (load_spec e a 8).
Proof.
  unfold alg_load64_fn. unfl. gs.
  loop_inv 0%nat (fun f : regs => f Dst = a /\ f AR1 = b_out b) Loop.
  { destruct Hi as [Fd Fp]. do 6 (stp; sil). stp. rewrite Fd. deref. ks HE.
    - lin_at (rd e (o_mem o5) a 8). { split; [reflexivity|]. rewrite <- HE. apply meq_sym, (wr_back e _ a 8); auto; lia. }
      goq. done_q. now rewrite HE.
    - sil. kback. apply weaken. apply IH; cbnx; [lts|auto]. }
  start f r. apply Loop. exact Hin.
Qed.
Lemma alg_store64_guess e b a v : b_val b <> b_out b -> atomic_fn e (guessed (alg_store64_fn e b a v)) (store_spec e a 8 v).
Proof.
  intros Hb. unfold alg_store64_fn. unfl. gs.
  loop_inv 0%nat (fun f : regs => f Dst = a /\ f Out = b_out b /\ f AR1 <> b_out b /\ al_buf e v f) Loop.
  { destruct Hi as (Fd & Fp & Fq & Fb). do 6 (stp; sil). stp. rewrite Fd. deref. other. ks HE.
    - lin_at tt. { red. rewrite (al_half e v) by auto. apply meq_refl. }
      goq. done_q. reflexivity.
    - sil. kback. apply weaken. apply IH; cbnx; [lts|auto]. }
  start f r. apply Loop. destruct Hin as (Fd & Fp & Fq & Fb). rewrite <- Fq in Hb. auto.
Qed.
Lemma alg_swap64_guess e b a v : b_val b <> b_out b -> atomic_fn e (guessed (alg_swap64_fn e b a v)) (swap_spec e a 8 v).
Proof.
  intros Hb. unfold alg_swap64_fn. unfl. gs.
  loop_inv 0%nat (fun f : regs => f Dst = a /\ f Out = b_out b /\ f AR1 <> b_out b /\ al_buf e v f) Loop.
  { destruct Hi as (Fd & Fp & Fq & Fb). do 6 (stp; sil). stp. rewrite Fd. deref. other. ks HE.
    - lin_at (rd e (o_mem o5) a 8). { split; [reflexivity|]. rewrite (al_half e v) by auto. apply meq_refl. }
      goq. done_q. now rewrite HE.
    - sil. kback. apply weaken. apply IH; cbnx; [lts|auto]. }
  start f r. apply Loop. destruct Hin as (Fd & Fp & Fq & Fb). rewrite <- Fq in Hb. auto.
Qed.
Theorem alg_store_all_guess e b n o a v f : b_val b <> b_out b -> alg_store e b n o a v = Impl f -> atomic_fn e (guessed f) (store_spec e a n v).
Proof.
  intros Hb. unfold alg_store. disp.
  - destruct (ar_sizes n E). rewrite guess_none; [apply fx_atomic, alg_store_fn_atomic; auto|]. match goal with t : (fence * fence)%type |- _ => destruct t end; reflexivity.
  - beqs. subst n. apply alg_store64_guess; auto.
Qed.
Theorem alg_swap_all_guess e b n o a v f : b_val b <> b_out b -> 0 <= a < 2 ^ 32 -> a mod n = 0 -> 0 <= v < 2 ^ (8 * n) ->
  alg_swap e b n o a v = Impl f -> atomic_fn e (guessed f) (swap_spec e a n v).
Proof.
  intros Hb Ha Hal Hv. unfold alg_swap. disp.
  - apply alg_swap_sub_guess; auto using al_sub_n.
  - beqs. subst n. apply alg_swap_guess.
  - beqs. subst n. apply alg_swap64_guess; auto.
Qed.
