(* L3: the accesses of the arch_legacy/riscv.rs blocks are ordered as the ordering argument asks *)
From Verif Require Import Order Arch_riscvl.
Lemma rvl_ord c b : ord_arch (RiscvL c b).
Proof.
  constructor.
  - intros n o a f H; unfold t_load, rvl_load in H; destruct o; cbn [with_table rv_load_tbl] in H; splits H; injection H as <-; ords false.
  - intros n o a v f H; unfold t_store, rvl_store in H; destruct o; cbn [with_table rv_store_tbl] in H; splits H; injection H as <-; ords true.
  - intros n o a v f H; unfold t_swap, rvl_swap in H; destruct o; cbn [with_table rv_amo_tbl rv_lrsc_tbl] in H; splits H; injection H as <-; ordn.
  - intros n s t a x y f [N1 N2] H; unfold t_cas, rvl_cas in H; destruct s, t; try congruence; clear N1 N2; cbn [with_table rv_amo_tbl rv_lrsc_tbl upgrade_success_ordering] in H; splits H; injection H as <-; ordn.
  - intros n s t a x y f [N1 N2] H; unfold t_casw, t_cas, rvl_cas in H; destruct s, t; try congruence; clear N1 N2; cbn [with_table rv_amo_tbl rv_lrsc_tbl upgrade_success_ordering] in H; splits H; injection H as <-; ordn.
Qed.
