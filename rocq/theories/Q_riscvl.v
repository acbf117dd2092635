(* operand contracts and progress of the legacy RISC-V blocks *)
From Verif Require Import Prog Arch_riscvl P_legacy.
Ltac unfa := unfold sllw, srlw, seqz, rv_l, rv_s, rv_lr, rv_sc, rv_amoswap; unfl.

Lemma rvl_load_contract c b n a t : contract LE (rvl_load_fn c b n a t).
Proof. destruct t as [ac re]. unfold rvl_load_fn. unfa. contract_tac. Qed.
Lemma rvl_store_contract c b n a v t : contract LE (rvl_store_fn c b n a v t).
Proof. destruct t as [ac re]. unfold rvl_store_fn. unfa. contract_tac. Qed.
Lemma rvl_swap_contract c b n a v t : contract LE (rvl_swap_fn c b n a v t).
Proof. unfold rvl_swap_fn. unfa. contract_tac. Qed.
Lemma rvl_cas_contract c b n a old new t : contract LE (rvl_cas_fn c b n a old new t).
Proof. destruct t as [ac re]. unfold rvl_cas_fn. unfa. contract_tac. Qed.
Lemma rvl_swap_sub_contract c b n a v t : contract LE (rvl_swap_sub_fn c b n a v t).
Proof. destruct t as [ac re]. unfold rvl_swap_sub_fn. destruct create_sub_word_mask_values as [[dst shift] mask]. unfa. contract_tac. Qed.
Lemma rvl_cas_sub_contract c b n a old new t : contract LE (rvl_cas_sub_fn c b n a old new t).
Proof. destruct t as [ac re]. unfold rvl_cas_sub_fn. destruct create_sub_word_mask_values as [[dst shift] mask]. unfa. contract_tac. Qed.

Lemma rvl_load_progress c b n a t x y : progress LE (rvl_load_fn c b n a t) x y 4.
Proof. destruct t as [ac re]. unfold rvl_load_fn. unfa. startt f r. tline. Qed.
Lemma rvl_store_progress c b n a v t x y : progress LE (rvl_store_fn c b n a v t) x y 4.
Proof. destruct t as [ac re]. unfold rvl_store_fn. unfa. startt f r. tline. Qed.
Lemma rvl_swap_progress c b n a v t x y : progress LE (rvl_swap_fn c b n a v t) x y 3.
Proof. unfold rvl_swap_fn. unfa. startt f r. tline. Qed.
Lemma rvl_cas_progress c b n a old new t : progress LE (rvl_cas_fn c b n a old new t) a n 11.
Proof.
  destruct t as [x y]. unfold rvl_cas_fn. unfa.
  tinv 2%nat 9%nat (fun f : regs => f Dst = a) Loop; [tloop 2%nat IH ltac:(rewrite ?Hi) ltac:(first [assumption|lts])|].
  startt f r. do 2 stt. tenter Loop. tauto.
Qed.
Lemma rvl_swap_sub_progress c b n a v t : progress LE (rvl_swap_sub_fn c b n a v t) (fst (fst (create_sub_word_mask_values (rv_arch c) LE (rv_uw c) (rv_w c) n a))) 4 13.
Proof.
  destruct t as [x y]. unfold rvl_swap_sub_fn. destruct create_sub_word_mask_values as [[dst shift] mask]. cbn [fst]. unfa.
  tinv 3%nat 10%nat (fun f : regs => f Dst = dst) Loop; [tloop 3%nat IH ltac:(rewrite ?Hi) ltac:(first [assumption|lts])|].
  startt f r. do 3 stt. tenter Loop. tauto.
Qed.
Lemma rvl_cas_sub_progress c b n a old new t : progress LE (rvl_cas_sub_fn c b n a old new t) (fst (fst (create_sub_word_mask_values (rv_arch c) LE (rv_uw c) (rv_w c) n a))) 4 20.
Proof.
  destruct t as [x y]. unfold rvl_cas_sub_fn. destruct create_sub_word_mask_values as [[dst shift] mask]. cbn [fst]. unfa.
  tinv 5%nat 15%nat (fun f : regs => f Dst = dst) Loop; [tloop 5%nat IH ltac:(rewrite ?Hi) ltac:(first [assumption|lts])|].
  startt f r. do 5 stt. tenter Loop. tauto.
Qed.
