(* L3: the accesses of the arch_legacy/arm.rs blocks are ordered as the ordering argument asks *)
From Verif Require Import Order O_arm Arch_arml.
Ltac aretl := intros h x O; unfold arl_cas_fn, arl_cas64_fn, arl_casw_fn, arl_casw64_fn, ar_ret in O; cbn [f_out] in O; match type of O with (if ?b then _ else _) = _ => destruct b; [injection O as <-; reflexivity|discriminate O] end.
Ltac ordRl := apply okR_spec; [aretl|chk].
Lemma arl_ord c b : ord_arch (ArmL c b).
Proof.
  destruct c as [e v7 m]. constructor.
  - intros n o a f H; unfold t_load, arl_load in H; destruct o; art H; splits H; injection H as <-; destruct v7; ordn.
  - intros n o a v0 f H; unfold t_store, arl_store in H; destruct o; art H; splits H; injection H as <-; first [ordk [Tmp; FZ]|ordk [R; FZ]].
  - intros n o a v0 f H; unfold t_swap, arl_swap in H; destruct o; art H; splits H; injection H as <-; ordn.
  - intros n s t a x0 y0 f [N1 N2] H; unfold t_cas, arl_cas in H; destruct s, t; try congruence; clear N1 N2; art H; splits H; injection H as <-; destruct v7; ordRl.
  - intros n s t a x0 y0 f [N1 N2] H; unfold t_casw, arl_casw in H; destruct s, t; try congruence; clear N1 N2; art H; splits H; injection H as <-; destruct v7; ordRl.
Qed.
