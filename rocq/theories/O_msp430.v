(* L3: the accesses of the blocks are ordered as the ordering argument asks (all orders, all sizes, all configurations) *)
From Verif Require Import Order Arch_msp430.
Lemma ms_ord : ord_arch (Msp430).
Proof.
  constructor.
  - intros n o a f H; unfold t_load, ms_load in H; destruct o; cbn [with_table ] in H; splits H; injection H as <-; first [ords false|ordn].
  - intros n o a v0 f H; unfold t_store, ms_store in H; destruct o; cbn [with_table ] in H; splits H; injection H as <-; first [ords true|ordn].
  - intros n o a v0 f H; unfold t_swap, ms_swap in H; destruct o; cbn [with_table ] in H; splits H; injection H as <-; ordn.
  - intros n s t a x0 y0 f [N1 N2] H; unfold t_cas, ms_cas in H; destruct s, t; try congruence; clear N1 N2; cbn [with_table  upgrade_success_ordering] in H; splits H; injection H as <-; ordn.
  - intros n s t a x0 y0 f [N1 N2] H; unfold t_casw, t_cas, ms_cas in H; destruct s, t; try congruence; clear N1 N2; cbn [with_table  upgrade_success_ordering] in H; splits H; injection H as <-; ordn.
Qed.
