(* operand contracts and progress of the pre-v6 Arm Linux blocks *)
From Verif Require Import Prog Arch_arm_linux Sub32 Wide P_arm P_arm_linux Q_arm.

Lemma al_load_contract e n a t : contract e (al_load_fn n a t).
Proof. unfold al_load_fn. contract_tac. Qed.
Lemma al_store_contract e n a v t : contract e (al_store_fn n a v t).
Proof. unfold al_store_fn. contract_tac. Qed.
Lemma al_swap_contract e a v : contract e (al_swap_fn a v).
Proof. unfold al_swap_fn. unfl. contract_tac. Qed.
Lemma al_cas_contract e a old new : contract e (al_cas_fn a old new).
Proof. unfold al_cas_fn. unfl. contract_tac. Qed.
Lemma al_swap_sub_contract e n a v : contract e (al_swap_sub_fn e n a v).
Proof. unfold al_swap_sub_fn. destruct create_sub_word_mask_values as [[dst shift] mask]. unfl. contract_tac. Qed.
Lemma al_cas_sub_contract e n a old new : contract e (al_cas_sub_fn e n a old new).
Proof. unfold al_cas_sub_fn. destruct create_sub_word_mask_values as [[dst shift] mask]. unfl. contract_tac. Qed.
Lemma al_load64_contract e po a : contract e (al_load64_fn e po a).
Proof. unfold al_load64_fn. unfl. contract_tac. Qed.
Lemma al_store64_contract e po a v : contract e (al_store64_fn e po a v).
Proof. unfold al_store64_fn. unfl. contract_tac. Qed.
Lemma al_swap64_contract e po a v : contract e (al_swap64_fn e po a v).
Proof. unfold al_swap64_fn. unfl. contract_tac. Qed.
Lemma al_cas64_contract e po a old new : contract e (al_cas64_fn e po a old new).
Proof. unfold al_cas64_fn. unfl. contract_tac. Qed.

Lemma al_load_progress e n a t x y : progress e (al_load_fn n a t) x y 2.
Proof. unfold al_load_fn. startt f r. tline. Qed.
Lemma al_store_progress e n a v t x y : progress e (al_store_fn n a v t) x y 3.
Proof. unfold al_store_fn. startt f r. tline. Qed.
(* the helper call: success runs to the end, failure was disturbed *)
Ltac kfail IH HB Hi :=
  stt; stk; eapply T_back; [|repeat constructor|apply IH; cbnx; [lts|exact Hi]];
  match goal with |- (1 <= ?X)%nat => destruct X eqn:Z0 end; [|apply le_n_S, Nat.le_0_l]; exfalso; tzero;
  repeat match goal with K : o_ok _ = true |- _ => rewrite K in *; clear K end.
Ltac kfail4 IH HB Hi := kfail IH HB Hi; 
  repeat match goal with K : rd _ (o_mem _) _ _ = _ |- _ => rewrite K in HB; clear K end; rewrite Z.eqb_refl in HB; discriminate.
Ltac kcall4 IH Hi := stt; rewrite Hi, ?Z.add_0_r, low32_rd by auto; let HB := fresh "HB" in tcase HB; [stt; stk; tline | kfail4 IH HB Hi].
Lemma al_swap_progress e a v : progress e (al_swap_fn a v) a 4 5.
Proof.
  unfold al_swap_fn. unfl. tinv 0%nat 5%nat (fun f : regs => f Dst = a) Loop; [do 3 stt; kcall4 IH Hi|].
  startt f r. apply Loop. tauto.
Qed.
Ltac tbr := match goal with |- match (if ?b then _ else _) with _ => _ end => destruct b end; cbnx.
Lemma al_cas_progress e a old new : progress e (al_cas_fn a old new) a 4 11.
Proof.
  unfold al_cas_fn. unfl. tinv 0%nat 11%nat (fun f : regs => f Dst = a) Loop; [do 5 stt; tbr; [do 2 stt|stt]; kcall4 IH Hi|].
  startt f r. apply Loop. tauto.
Qed.
Lemma al_swap_sub_progress e n a v : progress e (al_swap_sub_fn e n a v) (fst (fst (create_sub_word_mask_values A_arm e 32 32 n a))) 4 9.
Proof.
  unfold al_swap_sub_fn. destruct create_sub_word_mask_values as [[dst shift] mask]. cbn [fst]. unfl.
  tinv 1%nat 8%nat (fun f : regs => f Dst = dst) Loop; [do 5 stt; kcall4 IH Hi|].
  startt f r. stt. tenter Loop. tauto.
Qed.
Lemma al_cas_sub_progress e n a old new : progress e (al_cas_sub_fn e n a old new) (fst (fst (create_sub_word_mask_values A_arm e 32 32 n a))) 4 16.
Proof.
  unfold al_cas_sub_fn. destruct create_sub_word_mask_values as [[dst shift] mask]. cbn [fst]. unfl.
  tinv 2%nat 14%nat (fun f : regs => f Dst = dst) Loop; [do 5 stt; tbr; [do 2 stt|do 3 stt]; kcall4 IH Hi|].
  startt f r. do 2 stt. tenter Loop. tauto.
Qed.
Lemma halves_same e m m' m'' a : wf_mem m -> wf_mem m' -> wf_mem m'' -> rd e m' a 8 = rd e m a 8 -> rd e m'' a 8 = rd e m' a 8 ->
  rd e m'' a 8 = halves e 32 (rd e m a 4) (rd e m' (a + 4) 4).
Proof.
  intros H H' H'' E1 E2. destruct (rd2_inv e m' m a 4 H' H ltac:(lia) E1) as [_ ->]. rewrite E2, E1.
  symmetry. apply (halves_rd e m a 4); auto; lia.
Qed.
Ltac kfail8 IH HB Hi := kfail IH HB Hi; apply andb_false_iff in HB; destruct HB as [HB|HB]; [discriminate|]; apply Z.eqb_neq in HB; apply HB;
  apply halves_same; auto; congruence.
Ltac kcall8 IH Hi Fd Fp := stt; rewrite Fd, ?Z.add_0_r; unfold al_deref; cbnx; rewrite ?Fp, ?Z.eqb_refl; let HB := fresh "HB" in tcase HB; [stt; stk; tline | kfail8 IH HB Hi].
Lemma al_load64_progress e po a : progress e (al_load64_fn e po a) a 8 8.
Proof.
  unfold al_load64_fn. unfl. tinv 0%nat 8%nat (fun f : regs => f Dst = a /\ f AR1 = po) Loop; [pose proof Hi as [Fd Fp]; do 6 stt; kcall8 IH Hi Fd Fp|].
  startt f r. apply Loop. tauto.
Qed.
Lemma al_store64_progress e po a v : progress e (al_store64_fn e po a v) a 8 8.
Proof.
  unfold al_store64_fn. unfl. tinv 0%nat 8%nat (fun f : regs => f Dst = a /\ f Out = po) Loop; [pose proof Hi as [Fd Fp]; do 6 stt; kcall8 IH Hi Fd Fp|].
  startt f r. apply Loop. tauto.
Qed.
Lemma al_swap64_progress e po a v : progress e (al_swap64_fn e po a v) a 8 8.
Proof.
  unfold al_swap64_fn. unfl. tinv 0%nat 8%nat (fun f : regs => f Dst = a /\ f Out = po) Loop; [pose proof Hi as [Fd Fp]; do 6 stt; kcall8 IH Hi Fd Fp|].
  startt f r. apply Loop. tauto.
Qed.
Lemma al_cas64_progress e po a old new : progress e (al_cas64_fn e po a old new) a 8 16.
Proof.
  unfold al_cas64_fn. unfl. tinv 0%nat 16%nat (fun f : regs => f Dst = a /\ f Out = po) Loop;
  [pose proof Hi as [Fd Fp]; do 9 stt; tbr; [do 3 stt|do 2 stt]; kcall8 IH Hi Fd Fp|].
  startt f r. apply Loop. tauto.
Qed.
