(* operand contracts and progress of the Hexagon blocks *)
From Verif Require Import Prog Arch_hexagon Sub32 Wide P_hexagon Q_arm.

Lemma hx_load_contract n a : contract LE (hx_load_fn n a).
Proof. unfold hx_load_fn. contract_tac. Qed.
Lemma hx_store_contract n a v : contract LE (hx_store_fn n a v).
Proof. unfold hx_store_fn. contract_tac. Qed.
Lemma hx_swap_contract a v : contract LE (hx_swap_fn a v).
Proof. unfold hx_swap_fn. unfh. contract_tac. Qed.
Lemma hx_cas_contract a old new : contract LE (hx_cas_fn a old new).
Proof. unfold hx_cas_fn. unfh. contract_tac. Qed.
Lemma hx_swap_sub_contract n a v : contract LE (hx_swap_sub_fn n a v).
Proof. unfold hx_swap_sub_fn. destruct create_sub_word_mask_values as [[dst shift] mask]. unfh. contract_tac. Qed.
Lemma hx_cas_sub_contract n a old new : contract LE (hx_cas_sub_fn n a old new).
Proof. unfold hx_cas_sub_fn. destruct create_sub_word_mask_values as [[dst shift] mask]. unfh. contract_tac. Qed.
Lemma hx_load64_contract a : contract LE (hx_load64_fn a).
Proof. unfold hx_load64_fn. unfh. contract_tac. Qed.
Lemma hx_store64_contract a v : contract LE (hx_store64_fn a v).
Proof. unfold hx_store64_fn. unfh. contract_tac. Qed.
Lemma hx_swap64_contract a v : contract LE (hx_swap64_fn a v).
Proof. unfold hx_swap64_fn. unfh. contract_tac. Qed.
Lemma hx_cas64_contract a old new : contract LE (hx_cas64_fn a old new).
Proof. unfold hx_cas64_fn. unfh. contract_tac. Qed.

Lemma hx_load_progress n a x y : progress LE (hx_load_fn n a) x y 1.
Proof. unfold hx_load_fn. startt f r. tline. Qed.
Lemma hx_store_progress n a v x y : progress LE (hx_store_fn n a v) x y 1.
Proof. unfold hx_store_fn. startt f r. tline. Qed.
Lemma hx_load64_progress a x y : progress LE (hx_load64_fn a) x y 1.
Proof. unfold hx_load64_fn. unfh. startt f r. tline. Qed.
Lemma hx_store64_progress a v x y : progress LE (hx_store64_fn a v) x y 1.
Proof. unfold hx_store64_fn. unfh. startt f r. tline. Qed.
Lemma hx_swap_progress a v : progress LE (hx_swap_fn a v) a 4 4.
Proof.
  unfold hx_swap_fn. unfh.
  tinv 0%nat 4%nat (fun f : regs => f Dst = a) Loop; [tloop 0%nat IH ltac:(stk; rewrite ?Hi) ltac:(first [assumption|lts])|].
  startt f r. apply Loop. tauto.
Qed.
Lemma hx_cas_progress a old new : progress LE (hx_cas_fn a old new) a 4 9.
Proof.
  unfold hx_cas_fn. unfh.
  tinv 0%nat 9%nat (fun f : regs => f Dst = a) Loop; [tloop 0%nat IH ltac:(stk; rewrite ?Hi) ltac:(first [assumption|lts])|].
  startt f r. apply Loop. tauto.
Qed.
Lemma hx_swap_sub_progress n a v : progress LE (hx_swap_sub_fn n a v) (fst (fst (create_sub_word_mask_values A_hexagon LE 32 32 n a))) 4 8.
Proof.
  unfold hx_swap_sub_fn. destruct create_sub_word_mask_values as [[dst shift] mask]. cbn [fst]. unfh.
  tinv 1%nat 7%nat (fun f : regs => f Dst = dst) Loop; [tloop 1%nat IH ltac:(stk; rewrite ?Hi) ltac:(first [assumption|lts])|].
  startt f r. stt. tenter Loop. tauto.
Qed.
Lemma hx_cas_sub_progress n a old new : progress LE (hx_cas_sub_fn n a old new) (fst (fst (create_sub_word_mask_values A_hexagon LE 32 32 n a))) 4 16.
Proof.
  unfold hx_cas_sub_fn. destruct create_sub_word_mask_values as [[dst shift] mask]. cbn [fst]. unfh.
  tinv 2%nat 14%nat (fun f : regs => f Dst = dst) Loop; [tloop 2%nat IH ltac:(stk; rewrite ?Hi) ltac:(first [assumption|lts])|].
  startt f r. do 2 stt. tenter Loop. tauto.
Qed.
Ltac retryh IH HB Hi :=
  stt; stk; eapply T_back; [|repeat constructor|apply IH; cbnx; [lts|exact Hi]];
  match goal with |- (1 <= ?X)%nat => destruct X eqn:Z0 end; [|apply le_n_S, Nat.le_0_l]; exfalso; tzero;
  repeat match goal with K : o_ok _ = true |- _ => rewrite K in *; clear K end;
  rewrite scp4 in HB by (auto; congruence); discriminate.
Lemma hx_swap64_progress a v : progress LE (hx_swap64_fn a v) a 8 4.
Proof.
  unfold hx_swap64_fn. unfh.
  tinv 0%nat 4%nat (fun f : regs => f Dst = a) Loop.
  { do 3 stt; rewrite Hi, scp_may_hit; scfail HB; [stt; stk; tline|retryh IH HB Hi]. }
  startt f r. apply Loop. tauto.
Qed.
Lemma hx_cas64_progress a old new : progress LE (hx_cas64_fn a old new) a 8 11.
Proof.
  unfold hx_cas64_fn. unfh.
  tinv 0%nat 11%nat (fun f : regs => f Dst = a) Loop.
  { do 4 stt. match goal with |- match (if ?b then _ else _) with _ => _ end => destruct b end; cbnx; [tline|].
    do 2 stt. match goal with |- match (if ?b then _ else _) with _ => _ end => destruct b end; cbnx; [tline|].
    stt. rewrite Hi, scp_may_hit; scfail HB; [stt; stk; tline|retryh IH HB Hi]. }
  startt f r. apply Loop. tauto.
Qed.
