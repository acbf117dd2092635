(* operand contracts and progress of the src/arch_legacy pre-v6 Arm Linux blocks *)
From Verif Require Import Prog Arch_arm_linuxl Sub32 Wide P_arm P_legacy P_arm_linux P_arm_linuxl Q_arm Q_arml Q_arm_linux.
Ltac unfl := P_arm_linuxl.unfl.

Lemma alg_load_contract e b n a t : contract e (alg_load_fn b n a t).
Proof. unfold alg_load_fn. unfl. contract_tac. Qed.
Lemma alg_store_contract e b n a v t : contract e (alg_store_fn b n a v t).
Proof. unfold alg_store_fn. unfl. contract_tac. Qed.
Lemma alg_swap_contract e b a v : contract e (alg_swap_fn b a v).
Proof. unfold alg_swap_fn. unfl. contract_tac. Qed.
Lemma alg_cas_contract e b a old new : contract e (alg_cas_fn b a old new).
Proof. unfold alg_cas_fn. unfl. contract_tac. Qed.
Lemma alg_swap_sub_contract e b n a v : contract e (alg_swap_sub_fn e b n a v).
Proof. unfold alg_swap_sub_fn. destruct create_sub_word_mask_values as [[dst shift] mask]. unfl. contract_tac. Qed.
Lemma alg_cas_sub_contract e b n a old new : contract e (alg_cas_sub_fn e b n a old new).
Proof. unfold alg_cas_sub_fn. destruct create_sub_word_mask_values as [[dst shift] mask]. unfl. contract_tac. Qed.
Lemma alg_load64_contract e b a : contract e (alg_load64_fn e b a).
Proof. unfold alg_load64_fn. unfl. contract_tac. Qed.
Lemma alg_store64_contract e b a v : contract e (alg_store64_fn e b a v).
Proof. unfold alg_store64_fn. unfl. contract_tac. Qed.
Lemma alg_swap64_contract e b a v : contract e (alg_swap64_fn e b a v).
Proof. unfold alg_swap64_fn. unfl. contract_tac. Qed.
Lemma alg_cas64_contract e b a old new : contract e (alg_cas64_fn e b a old new).
Proof. unfold alg_cas64_fn. unfl. contract_tac. Qed.

Lemma alg_load_progress e b n a t x y : progress e (alg_load_fn b n a t) x y 3.
Proof. unfold alg_load_fn. unfl. startt f r. tline. Qed.
Lemma alg_store_progress e b n a v t x y : progress e (alg_store_fn b n a v t) x y 4.
Proof. unfold alg_store_fn. unfl. startt f r. tline. Qed.
(* the helper call: success runs to the end, failure was disturbed *)
Ltac kfail IH HB Hi :=
  stt; rewrite al_nz0; stk; stt; stk; eapply T_back; [|repeat constructor|apply IH; cbnx; [lts|exact Hi]];
  match goal with |- (1 <= ?X)%nat => destruct X eqn:Z0 end; [|apply le_n_S, Nat.le_0_l]; exfalso; tzero;
  repeat match goal with K : o_ok _ = true |- _ => rewrite K in *; clear K end.
Ltac kfail4 IH HB Hi := kfail IH HB Hi; 
  repeat match goal with K : rd _ (o_mem _) _ _ = _ |- _ => rewrite K in HB; clear K end; rewrite Z.eqb_refl in HB; discriminate.
Ltac kcall4 IH Hi := stt; rewrite Hi, ?Z.add_0_r, low32_rd by auto; let HB := fresh "HB" in tcase HB; [stt; stk; stt; stk; tline | kfail4 IH HB Hi].
Lemma alg_swap_progress e b a v : progress e (alg_swap_fn b a v) a 4 8.
Proof.
  unfold alg_swap_fn. unfl. tinv 1%nat 7%nat (fun f : regs => f Dst = a) Loop; [do 3 stt; kcall4 IH Hi|].
  startt f r. sttg. tenter Loop. tauto.
Qed.
Ltac tbr := match goal with |- match (if ?b then _ else _) with _ => _ end => destruct b end; cbnx.
Lemma alg_cas_progress e b a old new : progress e (alg_cas_fn b a old new) a 4 15.
Proof.
  unfold alg_cas_fn. unfl. tinv 2%nat 13%nat (fun f : regs => f Dst = a) Loop; [do 5 stt; tbr; [do 2 stt|stt]; kcall4 IH Hi|].
  startt f r. do 2 sttg. tenter Loop. tauto.
Qed.
Lemma alg_swap_sub_progress e b n a v : progress e (alg_swap_sub_fn e b n a v) (fst (fst (create_sub_word_mask_values A_arm e 32 32 n a))) 4 13.
Proof.
  unfold alg_swap_sub_fn. destruct create_sub_word_mask_values as [[dst shift] mask]. cbn [fst]. unfl.
  tinv 3%nat 10%nat (fun f : regs => f Dst = dst) Loop; [do 5 stt; kcall4 IH Hi|].
  startt f r. sttg. do 2 stt. tenter Loop. tauto.
Qed.
Lemma alg_cas_sub_progress e b n a old new : progress e (alg_cas_sub_fn e b n a old new) (fst (fst (create_sub_word_mask_values A_arm e 32 32 n a))) 4 22.
Proof.
  unfold alg_cas_sub_fn. destruct create_sub_word_mask_values as [[dst shift] mask]. cbn [fst]. unfl.
  tinv 6%nat 16%nat (fun f : regs => f Dst = dst) Loop; [do 5 stt; tbr; [do 2 stt|do 3 stt]; kcall4 IH Hi|].
  startt f r. do 2 sttg. do 4 stt. tenter Loop. tauto.
Qed.
Ltac kfail8 IH HB Hi := kfail IH HB Hi; apply andb_false_iff in HB; destruct HB as [HB|HB]; [discriminate|]; apply Z.eqb_neq in HB; apply HB;
  apply halves_same; auto; congruence.
Ltac kcall8 IH Hi Fd Fp := stt; rewrite Fd, ?Z.add_0_r; unfold al_deref; cbnx; rewrite ?Fp, ?Z.eqb_refl; let HB := fresh "HB" in tcase HB; [stt; stk; stt; stk; tline | kfail8 IH HB Hi].
Lemma alg_load64_progress e b a : progress e (alg_load64_fn e b a) a 8 9.
Proof.
  unfold alg_load64_fn. unfl. tinv 0%nat 9%nat (fun f : regs => f Dst = a /\ f AR1 = b_out b) Loop; [pose proof Hi as [Fd Fp]; do 6 stt; kcall8 IH Hi Fd Fp|].
  startt f r. apply Loop. tauto.
Qed.
Lemma alg_store64_progress e b a v : progress e (alg_store64_fn e b a v) a 8 9.
Proof.
  unfold alg_store64_fn. unfl. tinv 0%nat 9%nat (fun f : regs => f Dst = a /\ f Out = b_out b) Loop; [pose proof Hi as [Fd Fp]; do 6 stt; kcall8 IH Hi Fd Fp|].
  startt f r. apply Loop. tauto.
Qed.
Lemma alg_swap64_progress e b a v : progress e (alg_swap64_fn e b a v) a 8 9.
Proof.
  unfold alg_swap64_fn. unfl. tinv 0%nat 9%nat (fun f : regs => f Dst = a /\ f Out = b_out b) Loop; [pose proof Hi as [Fd Fp]; do 6 stt; kcall8 IH Hi Fd Fp|].
  startt f r. apply Loop. tauto.
Qed.
Lemma alg_cas64_progress e b a old new : progress e (alg_cas64_fn e b a old new) a 8 19.
Proof.
  unfold alg_cas64_fn. unfl. tinv 2%nat 17%nat (fun f : regs => f Dst = a /\ f Out = b_out b) Loop;
  [pose proof Hi as [Fd Fp]; do 9 stt; tbr; [do 3 stt|do 2 stt]; kcall8 IH Hi Fd Fp|].
  startt f r. do 2 sttg. tenter Loop. tauto.
Qed.
