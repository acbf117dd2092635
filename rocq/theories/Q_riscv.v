(* operand contracts and progress of the RISC-V blocks *)
From Verif Require Import Prog Arch_riscv.
Ltac unfa := unfold sllw, srlw, seqz, rv_l, rv_s, rv_lr, rv_sc, rv_amoswap.

Lemma rv_load_contract c n a t : contract LE (rv_load_fn c n a t).
Proof. destruct t as [ac re]. unfold rv_load_fn. unfa. contract_tac. Qed.
Lemma rv_store_contract c n a v t : contract LE (rv_store_fn c n a v t).
Proof. destruct t as [ac re]. unfold rv_store_fn. unfa. contract_tac. Qed.
Lemma rv_swap_amo_contract c n a v t : contract LE (rv_swap_amo_fn c n a v t).
Proof. unfold rv_swap_amo_fn. unfa. contract_tac. Qed.
Lemma rv_cas_contract c n a old new t : contract LE (rv_cas_fn c n a old new t).
Proof. destruct t as [ac re]. unfold rv_cas_fn. unfa. contract_tac. Qed.
Lemma rv_swap_sub_contract c n a v t : contract LE (rv_swap_sub_fn c n a v t).
Proof. destruct t as [ac re]. unfold rv_swap_sub_fn. destruct create_sub_word_mask_values as [[dst shift] mask]. unfa. contract_tac. Qed.
Lemma rv_cas_sub_contract c n a old new t : contract LE (rv_cas_sub_fn c n a old new t).
Proof. destruct t as [ac re]. unfold rv_cas_sub_fn. destruct create_sub_word_mask_values as [[dst shift] mask]. unfa. contract_tac. Qed.

Lemma rv_load_progress c n a t x y : progress LE (rv_load_fn c n a t) x y 3.
Proof. destruct t as [ac re]. unfold rv_load_fn. unfa. startt f r. tline. Qed.
Lemma rv_store_progress c n a v t x y : progress LE (rv_store_fn c n a v t) x y 3.
Proof. destruct t as [ac re]. unfold rv_store_fn. unfa. startt f r. tline. Qed.
Lemma rv_swap_amo_progress c n a v t x y : progress LE (rv_swap_amo_fn c n a v t) x y 1.
Proof. unfold rv_swap_amo_fn. unfa. startt f r. tline. Qed.
Lemma rv_cas_progress c n a old new t : progress LE (rv_cas_fn c n a old new t) a n 8.
Proof.
  destruct t as [x y]. unfold rv_cas_fn. unfa.
  tinv 0%nat 8%nat (fun f : regs => f Dst = a) Loop; [tloop 0%nat IH ltac:(rewrite ?Hi) ltac:(first [assumption|lts])|].
  startt f r. apply Loop. tauto.
Qed.
Lemma rv_swap_sub_progress c n a v t : progress LE (rv_swap_sub_fn c n a v t) (fst (fst (create_sub_word_mask_values (rv_arch c) LE (rv_uw c) (rv_w c) n a))) 4 10.
Proof.
  destruct t as [x y]. unfold rv_swap_sub_fn. destruct create_sub_word_mask_values as [[dst shift] mask]. cbn [fst]. unfa.
  tinv 2%nat 8%nat (fun f : regs => f Dst = dst) Loop; [tloop 2%nat IH ltac:(rewrite ?Hi) ltac:(first [assumption|lts])|].
  startt f r. do 2 stt. tenter Loop. tauto.
Qed.
Lemma rv_cas_sub_progress c n a old new t : progress LE (rv_cas_sub_fn c n a old new t) (fst (fst (create_sub_word_mask_values (rv_arch c) LE (rv_uw c) (rv_w c) n a))) 4 17.
Proof.
  destruct t as [x y]. unfold rv_cas_sub_fn. destruct create_sub_word_mask_values as [[dst shift] mask]. cbn [fst]. unfa.
  tinv 3%nat 14%nat (fun f : regs => f Dst = dst) Loop; [tloop 3%nat IH ltac:(rewrite ?Hi) ltac:(first [assumption|lts])|].
  startt f r. do 3 stt. tenter Loop. tauto.
Qed.
