(* operand contracts and progress of the LoongArch blocks *)
From Verif Require Import Prog Arch_loongarch.
Ltac unfa := unfold sllw, srlw, la_ld, la_st, la_ll, la_sc, la_amswap, la_amswap0.

Lemma la_load_contract n a t : contract LE (la_load_fn n a t).
Proof. unfold la_load_fn. unfa. contract_tac. Qed.
Lemma la_store_contract n a v t : contract LE (la_store_fn n a v t).
Proof. unfold la_store_fn. unfa. destruct t; contract_tac. Qed.
Lemma la_store_sub_contract n a v t : contract LE (la_store_sub_fn n a v t).
Proof. destruct t as [ac re]. unfold la_store_sub_fn. unfa. contract_tac. Qed.
Lemma la_swap_contract n a v : contract LE (la_swap_fn n a v).
Proof. unfold la_swap_fn. unfa. contract_tac. Qed.
Lemma la_cas_contract n a old new t : contract LE (la_cas_fn n a old new t).
Proof. unfold la_cas_fn. unfa. contract_tac. Qed.
Lemma la_swap_sub_contract c n a v : contract LE (la_swap_sub_fn c n a v).
Proof. unfold la_swap_sub_fn. destruct create_sub_word_mask_values as [[dst shift] mask]. unfa. contract_tac. Qed.
Lemma la_cas_sub_contract c n a old new t : contract LE (la_cas_sub_fn c n a old new t).
Proof. unfold la_cas_sub_fn. destruct create_sub_word_mask_values as [[dst shift] mask]. unfa. contract_tac. Qed.

Lemma la_load_progress n a t x y : progress LE (la_load_fn n a t) x y 2.
Proof. unfold la_load_fn. unfa. startt f r. tline. Qed.
Lemma la_store_progress n a v t x y : progress LE (la_store_fn n a v t) x y 1.
Proof. unfold la_store_fn. unfa. startt f r. destruct t; tline. Qed.
Lemma la_store_sub_progress n a v t x y : progress LE (la_store_sub_fn n a v t) x y 3.
Proof. destruct t as [ac re]. unfold la_store_sub_fn. unfa. startt f r. tline. Qed.
Lemma la_swap_progress n a v x y : progress LE (la_swap_fn n a v) x y 1.
Proof. unfold la_swap_fn. unfa. startt f r. tline. Qed.
Lemma la_cas_progress n a old new t : progress LE (la_cas_fn n a old new t) a n 8.
Proof.
  unfold la_cas_fn. unfa.
  tinv 0%nat 8%nat (fun f : regs => f Dst = a) Loop; [tloop 0%nat IH ltac:(rewrite ?Hi) ltac:(first [assumption|lts])|].
  startt f r. apply Loop. tauto.
Qed.
Lemma la_swap_sub_progress c n a v : progress LE (la_swap_sub_fn c n a v) (fst (fst (create_sub_word_mask_values A_loongarch64 LE (la_uw c) 64 n a))) 4 9.
Proof.
  unfold la_swap_sub_fn. destruct create_sub_word_mask_values as [[dst shift] mask]. cbn [fst]. unfa.
  tinv 2%nat 7%nat (fun f : regs => f Dst = dst) Loop; [tloop 2%nat IH ltac:(rewrite ?Hi) ltac:(first [assumption|lts])|].
  startt f r. do 2 stt. tenter Loop. tauto.
Qed.
Lemma la_cas_sub_progress c n a old new t : progress LE (la_cas_sub_fn c n a old new t) (fst (fst (create_sub_word_mask_values A_loongarch64 LE (la_uw c) 64 n a))) 4 14.
Proof.
  unfold la_cas_sub_fn. destruct create_sub_word_mask_values as [[dst shift] mask]. cbn [fst]. unfa.
  tinv 3%nat 11%nat (fun f : regs => f Dst = dst) Loop; [tloop 3%nat IH ltac:(rewrite ?Hi) ltac:(first [assumption|lts])|].
  startt f r. do 3 stt. tenter Loop. tauto.
Qed.
