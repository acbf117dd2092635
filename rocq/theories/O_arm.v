(* L3: the accesses of the arm blocks are ordered as the ordering argument asks (all orders, all sizes, all configurations) *)
From Verif Require Import Order Arch_arm.
Ltac art H := cbn [with_table ar_load_tbl ar_store_tbl ar_swap_tbl ar_cas_tbl ar_casw_tbl upgrade_success_ordering] in H.
(* R = 0 iff the store was performed *)
Definition okR (v : av) : option bool := match look [R; FZ] v R with Some x => Some (x =? 0) | None => None end.
Lemma okR_spec {A} T c (g : A -> rval) (f : fn A) :
  (forall h x, f_out f h = Some x -> rok (g x) = (h R =? 0)) ->
  (forall j, check (arch_mm T) (f_prog f) [R; FZ] [] None None (goodv T c okR) j = true) -> ord_fn T c g f.
Proof.
  intros O C. eapply ord_intro; [apply brs_none|exact C|]. intros os s0 its sf v x b P0 Rn E Ag Out_ K.
  unfold okR in K. destruct (look [R; FZ] v R) as [z|] eqn:L; [|discriminate K]. injection K as <-. rewrite (O _ _ Out_). now rewrite (Ag R z L).
Qed.
Ltac aret := intros h x O; unfold ar_cas_fn, ar_cas64_fn, ar_casw_fn, ar_casw64_fn, ar_ret in O; cbn [f_out] in O; match type of O with (if ?b then _ else _) = _ => destruct b; [injection O as <-; reflexivity|discriminate O] end.
Ltac ordR := apply okR_spec; [aret|chk].
Lemma ar_ord c : ord_arch (Arm c).
Proof.
  destruct c as [e v7 m]. constructor.
  - intros n o a f H; unfold t_load, ar_load in H; destruct o; art H; splits H; injection H as <-; destruct v7; ordn.
  - intros n o a v0 f H; unfold t_store, ar_store in H; destruct o; art H; splits H; injection H as <-; ordk [Tmp; FZ].
  - intros n o a v0 f H; unfold t_swap, ar_swap in H; destruct o; art H; splits H; injection H as <-; ordn.
  - intros n s t a x0 y0 f [N1 N2] H; unfold t_cas, ar_cas in H; destruct s, t; try congruence; clear N1 N2; art H; splits H; injection H as <-; destruct v7; ordR.
  - intros n s t a x0 y0 f [N1 N2] H; unfold t_casw, ar_casw in H; destruct s, t; try congruence; clear N1 N2; art H; splits H; injection H as <-; destruct v7; ordR.
Qed.
