(* L3: the accesses of the blocks are ordered as the ordering argument asks (all orders, all sizes, all configurations) *)
From Verif Require Import Order Arch_riscv.
Lemma rv_ord c : ord_arch (Riscv c).
Proof.
  constructor.
  - intros n o a f H; unfold t_load, rv_load in H; destruct o; cbn [with_table rv_load_tbl] in H; splits H; injection H as <-; ords false.
  - intros n o a v f H; unfold t_store, rv_store in H; destruct o; cbn [with_table rv_store_tbl] in H; splits H; injection H as <-; ords true.
  - intros n o a v f H; unfold t_swap, rv_swap in H; destruct o; cbn [with_table rv_amo_tbl rv_lrsc_tbl] in H; splits H; injection H as <-; ordn.
  - intros n s t a x y f [N1 N2] H; unfold t_cas, rv_cas in H; destruct s, t; try congruence; clear N1 N2; cbn [with_table rv_amo_tbl rv_lrsc_tbl upgrade_success_ordering] in H; splits H; injection H as <-; ordn.
  - intros n s t a x y f [N1 N2] H; unfold t_casw, t_cas, rv_cas in H; destruct s, t; try congruence; clear N1 N2; cbn [with_table rv_amo_tbl rv_lrsc_tbl upgrade_success_ordering] in H; splits H; injection H as <-; ordn.
Qed.
