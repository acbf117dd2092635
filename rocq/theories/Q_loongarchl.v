(* operand contracts and progress of the legacy LoongArch blocks *)
From Verif Require Import Prog Arch_loongarchl P_legacy.
Ltac unfa := unfold sllw, srlw, la_ld, la_st, la_ll, la_sc, la_amswap, la_amswap0, addiw0, sltui1; unfl.

Lemma lal_load_contract b n a t : contract LE (lal_load_fn b n a t).
Proof. unfold lal_load_fn. unfa. contract_tac. Qed.
Lemma lal_store_contract b n a v t : contract LE (lal_store_fn b n a v t).
Proof. unfold lal_store_fn. unfa. destruct t; contract_tac. Qed.
Lemma lal_store_sub_contract b n a v t : contract LE (lal_store_sub_fn b n a v t).
Proof. destruct t as [ac re]. unfold lal_store_sub_fn. unfa. contract_tac. Qed.
Lemma lal_swap_contract b n a v : contract LE (lal_swap_fn b n a v).
Proof. unfold lal_swap_fn. unfa. contract_tac. Qed.
Lemma lal_cas_contract b n a old new t : contract LE (lal_cas_fn b n a old new t).
Proof. unfold lal_cas_fn. unfa. contract_tac. Qed.
Lemma lal_swap_sub_contract c b n a v : contract LE (lal_swap_sub_fn c b n a v).
Proof. unfold lal_swap_sub_fn. destruct create_sub_word_mask_values as [[dst shift] mask]. unfa. contract_tac. Qed.
Lemma lal_cas_sub_contract c b n a old new t : contract LE (lal_cas_sub_fn c b n a old new t).
Proof. unfold lal_cas_sub_fn. destruct create_sub_word_mask_values as [[dst shift] mask]. unfa. contract_tac. Qed.

Lemma lal_load_progress b n a t x y : progress LE (lal_load_fn b n a t) x y 3.
Proof. unfold lal_load_fn. unfa. startt f r. tline. Qed.
Lemma lal_store_progress b n a v t x y : progress LE (lal_store_fn b n a v t) x y 2.
Proof. unfold lal_store_fn. unfa. startt f r. destruct t; tline. Qed.
Lemma lal_store_sub_progress b n a v t x y : progress LE (lal_store_sub_fn b n a v t) x y 4.
Proof. destruct t as [ac re]. unfold lal_store_sub_fn. unfa. startt f r. tline. Qed.
Lemma lal_swap_progress b n a v x y : progress LE (lal_swap_fn b n a v) x y 3.
Proof. unfold lal_swap_fn. unfa. startt f r. tline. Qed.
Lemma lal_cas_progress b n a old new t : progress LE (lal_cas_fn b n a old new t) a n 13.
Proof.
  unfold lal_cas_fn. unfa.
  tinv 2%nat 11%nat (fun f : regs => f Dst = a) Loop; [tloop 2%nat IH ltac:(rewrite ?Hi) ltac:(first [assumption|lts])|].
  startt f r. do 2 stt. tenter Loop. tauto.
Qed.
Lemma lal_swap_sub_progress c b n a v : progress LE (lal_swap_sub_fn c b n a v) (fst (fst (create_sub_word_mask_values A_loongarch64 LE (la_uw c) 64 n a))) 4 15.
Proof.
  unfold lal_swap_sub_fn. destruct create_sub_word_mask_values as [[dst shift] mask]. cbn [fst]. unfa.
  tinv 5%nat 10%nat (fun f : regs => f Dst = dst) Loop; [tloop 5%nat IH ltac:(rewrite ?Hi) ltac:(first [assumption|lts])|].
  startt f r. do 5 stt. tenter Loop. tauto.
Qed.
Lemma lal_cas_sub_progress c b n a old new t : progress LE (lal_cas_sub_fn c b n a old new t) (fst (fst (create_sub_word_mask_values A_loongarch64 LE (la_uw c) 64 n a))) 4 24.
Proof.
  unfold lal_cas_sub_fn. destruct create_sub_word_mask_values as [[dst shift] mask]. cbn [fst]. unfa.
  tinv 8%nat 16%nat (fun f : regs => f Dst = dst) Loop; [tloop 8%nat IH ltac:(rewrite ?Hi) ltac:(first [assumption|lts])|].
  startt f r. do 8 stt. tenter Loop. tauto.
Qed.
