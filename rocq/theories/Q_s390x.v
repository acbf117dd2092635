(* operand contracts and progress of the s390x blocks *)
From Verif Require Import Prog Arch_s390x Fields P_s390x.

Lemma sz_load_contract n a : contract BE (sz_load_fn n a).
Proof. unfold sz_load_fn. unfa. contract_tac. Qed.
Lemma sz_load_progress n a x y : progress BE (sz_load_fn n a) x y 1.
Proof. unfold sz_load_fn. unfa. startt f r. tline. Qed.
Lemma sz_store_contract n a v t : contract BE (sz_store_fn n a v t).
Proof. unfold sz_store_fn. unfa. contract_tac. Qed.
Lemma sz_store_progress n a v t x y : progress BE (sz_store_fn n a v t) x y 2.
Proof. unfold sz_store_fn. unfa. startt f r. tline. Qed.
Lemma sz_swap_contract n a v : contract BE (sz_swap_fn n a v).
Proof. unfold sz_swap_fn. unfa. contract_tac. Qed.
Lemma sz_cas_contract n a old new : contract BE (sz_cas_fn n a old new).
Proof. unfold sz_cas_fn. unfa. contract_tac. Qed.
Lemma sz_swap_sub_contract n a v : contract BE (sz_swap_sub_fn n a v).
Proof. unfold sz_swap_sub_fn. destruct create_sub_word_mask_values as [[dst shift] mask]. unfa. contract_tac. Qed.
Lemma sz_cas_sub_contract n a old new : contract BE (sz_cas_sub_fn n a old new).
Proof. unfold sz_cas_sub_fn. destruct create_sub_word_mask_values as [[dst shift] mask]. unfa. contract_tac. Qed.
Lemma sz_load128_contract a : contract BE (sz_load128_fn a).
Proof. unfold sz_load128_fn. unfa. contract_tac. Qed.
Lemma sz_store128_contract a v t : contract BE (sz_store128_fn a v t).
Proof. unfold sz_store128_fn. unfa. contract_tac. Qed.
Lemma sz_swap128_contract a v : contract BE (sz_swap128_fn a v).
Proof. unfold sz_swap128_fn. unfa. contract_tac. Qed.
Lemma sz_cas128_contract a old new : contract BE (sz_cas128_fn a old new).
Proof. unfold sz_cas128_fn. unfa. contract_tac. Qed.

Lemma sz_swap_progress n a v : 0 < n -> 8 * n <= 64 -> progress BE (sz_swap_fn n a v) a n 4.
Proof.
  intros Hn Hw. unfold sz_swap_fn. unfa.
  tinv_w 1%nat 3%nat (fun f : regs => f Dst = a) (fun f : regs => low (8 * n) (f Out)) Loop.
  { stt. stt. rewrite Hi. tcase E.
    - tline.
    - stt. assert (1 <= d0 + (d + x))%nat as G1.
      { destruct (d0 + (d + x))%nat eqn:Z0; [|lia]. exfalso. tzero. congruence. }
      eapply T_back1; [|lia|apply IH; cbnx]; [lia|lts|auto|].
      intros X. assert (d1 = 0%nat) as D1 by lia. tzero. rewrite junk_hi_low by lia. rewrite rd_low by (auto; lia). congruence. }
  startt f r. stt. eapply T_weakx; [|apply Loop; cbnx]; [lia|tauto|].
  intros _. rewrite junk_hi_low by lia. destruct Hin as [-> _]. rewrite Z.add_0_r. apply rd_low; auto; lia.
Qed.
Lemma sz_cas_progress n a old new x y : progress BE (sz_cas_fn n a old new) x y 2.
Proof. unfold sz_cas_fn. unfa. startt f r. tlinec. Qed.
Lemma sz_load128_progress a x y : progress BE (sz_load128_fn a) x y 1.
Proof. unfold sz_load128_fn. unfa. startt f r. tlinec. Qed.
Lemma sz_store128_progress a v t x y : progress BE (sz_store128_fn a v t) x y 2.
Proof. unfold sz_store128_fn. unfa. startt f r. tlinec. Qed.
Lemma sz_cas128_progress a old new x y : progress BE (sz_cas128_fn a old new) x y 2.
Proof. unfold sz_cas128_fn. unfa. startt f r. tlinec. Qed.
Lemma sz_swap128_progress a v : progress BE (sz_swap128_fn a v) a 16 8.
Proof.
  unfold sz_swap128_fn. unfa.
  tinv_w 2%nat 3%nat (fun f : regs => f Dst = a) (fun f : regs => low 64 (f AR1) + f AR0 * 2 ^ 64) Loop.
  { stt. stt. rewrite Hi. tcase E.
    - tline.
    - stt. assert (1 <= d0 + (d + x))%nat as G1.
      { destruct (d0 + (d + x))%nat eqn:Z0; [|lia]. exfalso. tzero. congruence. }
      eapply T_back1; [|lia|apply IH; cbnx]; [lia|lts|auto|].
      intros X. assert (d1 = 0%nat) as D1 by lia. tzero. rewrite low_low by lia. rewrite join_low_shiftr by lia. congruence. }
  startt f r. destruct Hin as [Fd _]. stt. stt. stt. stt. rewrite Fd. tcase E; [tline|].
  stt.
  eapply T_le; [|apply (Loop _ _ _ _ d3); cbnx; auto]; [lia|].
  intros X. tzero. rewrite low_low by lia. rewrite join_low_shiftr by lia. congruence.
Qed.
Lemma junk_rd4 m a k j : wf_mem m -> 32 <= k -> low 32 (junk_hi k 32 (rd BE m a 4) j) = rd BE m a 4.
Proof. intros. rewrite junk_hi_low by lia. apply (rd_low BE m a 4); auto; lia. Qed.
Lemma pay_one d s : (d + s - 1 = 0 -> 1 <= s -> d = 0)%nat.
Proof. lia. Qed.
Lemma le_skip d s : (1 <= s -> 1 <= d + s)%nat.
Proof. lia. Qed.
(* forget the value an instruction computed *)
Ltac sttg := stt; match goal with |- T _ _ _ _ _ _ _ _ (mkst _ (upd _ _ ?v) _) => generalize v; let y := fresh "y" in intros y end.
Lemma sz_swap_sub_progress n a v : progress BE (sz_swap_sub_fn n a v) (fst (fst (create_sub_word_mask_values A_s390x BE 64 32 n a))) 4 8.
Proof.
  unfold sz_swap_sub_fn. destruct create_sub_word_mask_values as [[dst shift] mask]. cbn [fst]. unfa.
  tinv_w 1%nat 7%nat (fun f : regs => f Dst = dst) (fun f : regs => low 32 (f Tmp2)) Loop.
  { stt. do 3 sttg. stt. rewrite Hi. change (8 * 4) with 32. tcase E.
    - tline.
    - stt. cbn [Z.eqb Pos.eqb]. match goal with |- T _ _ _ _ _ _ (_ + _ * (?d1 + ?X))%nat _ _ => assert (1 <= X)%nat as G1 end.
      { match goal with |- (1 <= ?X)%nat => destruct X eqn:Z0 end; [|apply le_n_S, Nat.le_0_l]. exfalso. tzero. congruence. }
      eapply T_back1; [|apply le_skip, G1|apply IH; cbnx]; [repeat constructor|lts|assumption|].
      intros X. assert (d4 = 0%nat) as D1 by (eapply pay_one; eassumption). clear X. tzero. rewrite junk_rd4 by (auto; lia). congruence. }
  startt f r. stt. eapply T_weakx; [|apply Loop; cbnx]; [lia|tauto|].
  intros _. destruct Hin as [-> _]. rewrite Z.add_0_r. apply junk_rd4; auto; lia.
Qed.
Lemma sz_cas_sub_progress n a old new : progress BE (sz_cas_sub_fn n a old new) (fst (fst (create_sub_word_mask_values A_s390x BE 64 32 n a))) 4 12.
Proof.
  unfold sz_cas_sub_fn. destruct create_sub_word_mask_values as [[dst shift] mask]. cbn [fst]. unfa.
  tinv_w 1%nat 11%nat (fun f : regs => f Dst = dst) (fun f : regs => low 32 (f Tmp2)) Loop.
  { stt. do 4 sttg. stt. match goal with |- match (if ?b then _ else _) with _ => _ end => destruct b end; cbnx; [tline|].
    sttg. stt. rewrite Hi. change (8 * 4) with 32.
    match goal with |- context [low 32 (f Tmp2) =? ?v] => destruct (Z.eqb_spec (low 32 (f Tmp2)) v) as [E|E] end; cbnx.
    1: tline.
    all: stt; cbn [Z.eqb Pos.eqb]; match goal with |- T _ _ _ _ _ _ (_ + _ * (?d1 + ?X))%nat _ _ => assert (1 <= X)%nat as G1 end.
      { match goal with |- (1 <= ?X)%nat => destruct X eqn:Z0 end; [|apply le_n_S, Nat.le_0_l]. exfalso. tzero. congruence. }
      eapply T_back1; [|apply le_skip, G1|apply IH; cbnx]; [repeat constructor|lts|assumption|].
      intros X. assert (d7 = 0%nat) as D1 by (eapply pay_one; eassumption). clear X. tzero. rewrite junk_rd4 by (auto; lia). congruence. }
  startt f r. stt. eapply T_weakx; [|apply Loop; cbnx]; [lia|tauto|].
  intros _. destruct Hin as [-> _]. rewrite Z.add_0_r. apply junk_rd4; auto; lia.
Qed.
