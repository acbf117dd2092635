(* operand contracts and progress of the m68k blocks *)
From Verif Require Import Prog Arch_m68k P_m68k Q_arm.

Lemma mk_load_contract n a : contract BE (mk_load_fn n a).
Proof. unfold mk_load_fn. unfm. contract_tac. Qed.
Lemma mk_store_contract n a v : contract BE (mk_store_fn n a v).
Proof. unfold mk_store_fn. unfm. contract_tac. Qed.
Lemma mk_swap_contract n a v : contract BE (mk_swap_fn n a v).
Proof. unfold mk_swap_fn. unfm. contract_tac. Qed.
Lemma mk_cas_contract n a old new : contract BE (mk_cas_fn n a old new).
Proof. unfold mk_cas_fn. unfm. contract_tac. Qed.
Lemma mk_load_progress n a x y : progress BE (mk_load_fn n a) x y 1.
Proof. unfold mk_load_fn. unfm. startt f r. tline. Qed.
Lemma mk_store_progress n a v x y : progress BE (mk_store_fn n a v) x y 1.
Proof. unfold mk_store_fn. unfm. startt f r. tline. Qed.
Lemma mk_cas_progress n a old new x y : progress BE (mk_cas_fn n a old new) x y 2.
Proof. unfold mk_cas_fn. unfm. startt f r. stt. match goal with |- context [if ?b then _ else _] => destruct b end; cbnx; tline. Qed.
Lemma mk_swap_progress n a v : 0 < n -> 8 * n <= 32 -> progress BE (mk_swap_fn n a v) a n 4.
Proof.
  intros Hn Hw. unfold mk_swap_fn. unfm.
  tinv_w 1%nat 3%nat (fun f : regs => f Dst = a) (fun f : regs => low (8 * n) (f Out)) Loop.
  { stt. stt. rewrite Hi. match goal with |- context [if ?x =? ?y then _ else _] => destruct (Z.eqb_spec x y) as [E|E] end; cbnx; [tline|].
    match goal with |- T _ _ _ _ _ _ (_ + _ * ?X)%nat _ _ => set (X0 := X) end. stt. stk.
    assert (1 <= X0)%nat as G1. { destruct X0 eqn:Z0; [|apply le_n_S, Nat.le_0_l]. exfalso. subst X0. tzero. congruence. }
    eapply T_back1; [|apply le_skip, G1|apply IH; cbnx]; [repeat constructor|lts|assumption|].
    intros X. match goal with K : (?d + _ - 1 = 0)%nat |- _ => assert (d = 0%nat) as Z1 by (eapply pay_one; eassumption) end.
    clear X X0 G1. tzero. rewrite junk_hi_low, rd_low by (auto; lia). congruence. }
  startt f r. stt. eapply T_weakx; [|apply Loop; cbnx]; [repeat constructor|tauto|].
  intros _. destruct Hin as [-> _]. rewrite junk_hi_low, rd_low by (auto; lia). reflexivity.
Qed.
