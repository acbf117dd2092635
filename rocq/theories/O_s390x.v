(* L3: the accesses of the blocks are ordered as the ordering argument asks (all orders, all sizes, all configurations) *)
From Verif Require Import Order Arch_s390x.
Lemma sz_ord c : ord_arch (S390x c).
Proof.
  constructor.
  - intros n o a f H; unfold t_load, sz_load in H; destruct o; cbn [with_table sz_store_tbl] in H; splits H; injection H as <-; first [ords false|ordn].
  - intros n o a v0 f H; unfold t_store, sz_store in H; destruct o; cbn [with_table sz_store_tbl] in H; splits H; injection H as <-; first [ords true|ordn].
  - intros n o a v0 f H; unfold t_swap, sz_swap in H; destruct o; cbn [with_table sz_store_tbl] in H; splits H; injection H as <-; ordn.
  - intros n s t a x0 y0 f [N1 N2] H; unfold t_cas, sz_cas in H; destruct s, t; try congruence; clear N1 N2; cbn [with_table sz_store_tbl upgrade_success_ordering] in H; splits H; injection H as <-; ordn.
  - intros n s t a x0 y0 f [N1 N2] H; unfold t_casw, t_cas, sz_cas in H; destruct s, t; try congruence; clear N1 N2; cbn [with_table sz_store_tbl upgrade_success_ordering] in H; splits H; injection H as <-; ordn.
Qed.
