(* L3: the accesses of the arch_legacy/armv8.rs blocks are ordered as the ordering argument asks *)
From Verif Require Import Order Arch_armv8l.
Ltac a8t H := cbn [with_table a8_rmw_tbl a8_load_tbl a8_store_tbl upgrade_success_ordering] in H.
Lemma a8l_ord c b : ord_arch (Armv8L c b).
Proof.
  destruct c as [e m]. constructor.
  - intros n o a f H; unfold t_load, a8l_load in H; destruct o; a8t H; splits H; injection H as <-; ordn.
  - intros n o a v0 f H; unfold t_store, a8l_store in H; destruct o; a8t H; splits H; injection H as <-; first [ordk [Tmp; FZ]|ordk [R; FZ]].
  - intros n o a v0 f H; unfold t_swap, a8l_swap in H; destruct o; a8t H; splits H; injection H as <-; ordn.
  - destruct m; intros n s t a x0 y0 f [N1 N2] H; unfold t_cas, a8l_cas in H; destruct s, t; try congruence; clear N1 N2; a8t H; splits H; injection H as <-; ordn.
  - destruct m; intros n s t a x0 y0 f [N1 N2] H; unfold t_casw, a8l_casw, a8l_cas in H; destruct s, t; try congruence; clear N1 N2; a8t H; splits H; injection H as <-; ordn.
Qed.
