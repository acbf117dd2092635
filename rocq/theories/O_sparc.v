(* L3: the accesses of the blocks are ordered as the ordering argument asks (all orders, all sizes, all configurations) *)
From Verif Require Import Order Arch_sparc.
Lemma sp_ord c : ord_arch (Sparc c).
Proof.
  destruct c as [w []]; constructor.
  - intros n o a f H; unfold t_load, sp_load in H; destruct o; cbn [with_table sp_rmw_tbl sp_load_tbl sp_store_tbl sp_v9] in H; splits H; injection H as <-; first [ords false|ordn].
  - intros n o a v0 f H; unfold t_store, sp_store in H; destruct o; cbn [with_table sp_rmw_tbl sp_load_tbl sp_store_tbl sp_v9] in H; splits H; injection H as <-; first [ords true|ordn].
  - intros n o a v0 f H; unfold t_swap, sp_swap in H; destruct o; cbn [with_table sp_rmw_tbl sp_load_tbl sp_store_tbl sp_v9] in H; splits H; injection H as <-; ordn.
  - intros n s t a x0 y0 f [N1 N2] H; unfold t_cas, sp_cas in H; destruct s, t; try congruence; clear N1 N2; cbn [with_table sp_rmw_tbl sp_load_tbl sp_store_tbl sp_v9 upgrade_success_ordering] in H; splits H; injection H as <-; ordn.
  - intros n s t a x0 y0 f [N1 N2] H; unfold t_casw, t_cas, sp_cas in H; destruct s, t; try congruence; clear N1 N2; cbn [with_table sp_rmw_tbl sp_load_tbl sp_store_tbl sp_v9 upgrade_success_ordering] in H; splits H; injection H as <-; ordn.
  - intros n o a f H; unfold t_load, sp_load in H; destruct o; cbn [with_table sp_rmw_tbl sp_load_tbl sp_store_tbl sp_v9] in H; splits H; injection H as <-; first [ords false|ordn].
  - intros n o a v0 f H; unfold t_store, sp_store in H; destruct o; cbn [with_table sp_rmw_tbl sp_load_tbl sp_store_tbl sp_v9] in H; splits H; injection H as <-; first [ords true|ordn].
  - intros n o a v0 f H; unfold t_swap, sp_swap in H; destruct o; cbn [with_table sp_rmw_tbl sp_load_tbl sp_store_tbl sp_v9] in H; splits H; injection H as <-; ordn.
  - intros n s t a x0 y0 f [N1 N2] H; unfold t_cas, sp_cas in H; destruct s, t; try congruence; clear N1 N2; cbn [with_table sp_rmw_tbl sp_load_tbl sp_store_tbl sp_v9 upgrade_success_ordering] in H; splits H; injection H as <-; ordn.
  - intros n s t a x0 y0 f [N1 N2] H; unfold t_casw, t_cas, sp_cas in H; destruct s, t; try congruence; clear N1 N2; cbn [with_table sp_rmw_tbl sp_load_tbl sp_store_tbl sp_v9 upgrade_success_ordering] in H; splits H; injection H as <-; ordn.
Qed.
