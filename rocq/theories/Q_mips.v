(* operand contracts and progress of the MIPS blocks *)
From Verif Require Import Prog Arch_mips.
Ltac unfa := unfold sllw, srlv, mi_l, mi_s, mi_ll, mi_sc.

Lemma mi_load_contract c n a t : contract (mi_e c) (mi_load_fn c n a t).
Proof. unfold mi_load_fn. unfa. contract_tac. Qed.
Lemma mi_load_progress c n a t x y : progress (mi_e c) (mi_load_fn c n a t) x y 2.
Proof. unfold mi_load_fn. unfa. startt f r. tline. Qed.
Lemma mi_store_contract c n a v t : contract (mi_e c) (mi_store_fn c n a v t).
Proof. destruct t as [ac re]. unfold mi_store_fn. unfa. contract_tac. Qed.
Lemma mi_store_progress c n a v t x y : progress (mi_e c) (mi_store_fn c n a v t) x y 3.
Proof. destruct t as [ac re]. unfold mi_store_fn. unfa. startt f r. tline. Qed.
Lemma mi_swap_contract c n a v t : contract (mi_e c) (mi_swap_fn c n a v t).
Proof. destruct t as [ac re]. unfold mi_swap_fn. unfa. contract_tac. Qed.
Lemma mi_swap_progress c n a v t : progress (mi_e c) (mi_swap_fn c n a v t) a n 7.
Proof.
  destruct t as [ac re]. unfold mi_swap_fn. unfa. 
  tinv 1%nat 6%nat (fun f : regs => f Dst = a) Loop; [tloop 1%nat IH ltac:(rewrite ?Hi) ltac:(first [assumption|lts])|].
  startt f r. do 1 stt. tenter Loop. tauto.
Qed.
Lemma mi_cas_contract c n a old new t : contract (mi_e c) (mi_cas_fn c n a old new t).
Proof. destruct t as [ac re]. unfold mi_cas_fn. unfa. contract_tac. Qed.
Lemma mi_cas_progress c n a old new t : progress (mi_e c) (mi_cas_fn c n a old new t) a n 10.
Proof.
  destruct t as [ac re]. unfold mi_cas_fn. unfa. 
  tinv 1%nat 9%nat (fun f : regs => f Dst = a) Loop; [tloop 1%nat IH ltac:(rewrite ?Hi) ltac:(first [assumption|lts])|].
  startt f r. do 1 stt. tenter Loop. tauto.
Qed.
Lemma mi_swap_sub_contract c n a v t : contract (mi_e c) (mi_swap_sub_fn c n a v t).
Proof. destruct t as [ac re]. unfold mi_swap_sub_fn. destruct create_sub_word_mask_values as [[dst shift] mask]. unfa. contract_tac. Qed.
Lemma mi_swap_sub_progress c n a v t : progress (mi_e c) (mi_swap_sub_fn c n a v t) (fst (fst (create_sub_word_mask_values (mi_arch c) (mi_e c) (mi_uw c) (mi_w c) n a))) 4 12.
Proof.
  destruct t as [ac re]. unfold mi_swap_sub_fn. destruct create_sub_word_mask_values as [[dst shift] mask]. cbn [fst]. unfa. 
  tinv 3%nat 9%nat (fun f : regs => f Dst = dst) Loop; [tloop 3%nat IH ltac:(rewrite ?Hi) ltac:(first [assumption|lts])|].
  startt f r. do 3 stt. tenter Loop. tauto.
Qed.
Lemma mi_cas_sub_contract c n a old new t : contract (mi_e c) (mi_cas_sub_fn c n a old new t).
Proof. destruct t as [ac re]. unfold mi_cas_sub_fn. destruct create_sub_word_mask_values as [[dst shift] mask]. unfa. contract_tac. Qed.
Lemma mi_cas_sub_progress c n a old new t : progress (mi_e c) (mi_cas_sub_fn c n a old new t) (fst (fst (create_sub_word_mask_values (mi_arch c) (mi_e c) (mi_uw c) (mi_w c) n a))) 4 17.
Proof.
  destruct t as [ac re]. unfold mi_cas_sub_fn. destruct create_sub_word_mask_values as [[dst shift] mask]. cbn [fst]. unfa. 
  tinv 4%nat 13%nat (fun f : regs => f Dst = dst) Loop; [tloop 4%nat IH ltac:(rewrite ?Hi) ltac:(first [assumption|lts])|].
  startt f r. do 4 stt. tenter Loop. tauto.
Qed.
