(* L3: the accesses of the armv8 blocks are ordered as the ordering argument asks (all orders, all sizes, all configurations) *)
From Verif Require Import Order Arch_armv8.
Lemma a8_ord c : ord_arch (Armv8 c).
Proof.
  destruct c as [e m]. constructor.
  - intros n o a f H; unfold t_load, a8_load in H; destruct o; cbn [with_table a8_rmw_tbl a8_load_tbl a8_store_tbl] in H; splits H; injection H as <-; ordn.
  - intros n o a v0 f H; unfold t_store, a8_store in H; destruct o; cbn [with_table a8_rmw_tbl a8_load_tbl a8_store_tbl] in H; splits H; injection H as <-; ordk [Tmp; FZ].
  - intros n o a v0 f H; unfold t_swap, a8_swap in H; destruct o; cbn [with_table a8_rmw_tbl a8_load_tbl a8_store_tbl] in H; splits H; injection H as <-; ordn.
  - destruct m; intros n s t a x0 y0 f [N1 N2] H; unfold t_cas, a8_cas in H; destruct s, t; try congruence; clear N1 N2; cbn [with_table a8_rmw_tbl a8_load_tbl a8_store_tbl upgrade_success_ordering] in H; splits H; injection H as <-; ordn.
  - destruct m; intros n s t a x0 y0 f [N1 N2] H; unfold t_casw, a8_casw, a8_cas in H; destruct s, t; try congruence; clear N1 N2; cbn [with_table a8_rmw_tbl a8_load_tbl a8_store_tbl upgrade_success_ordering] in H; splits H; injection H as <-; ordn.
Qed.
