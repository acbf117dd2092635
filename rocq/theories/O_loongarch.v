(* L3: the accesses of the loongarch blocks are ordered as the ordering argument asks (all orders, all sizes) *)
From Verif Require Import Order Arch_loongarch.
Ltac lat H := cbn [with_table la_load_tbl la_store_sub_tbl la_store_tbl la_fail_tbl] in H.
(* Tmp <> 0 iff the store was performed *)
Definition okT (v : av) : option bool := match look [Tmp] v Tmp with Some x => Some (negb (x =? 0)) | None => None end.
Lemma okT_spec {A} T c (g : A -> rval) (f : fn A) :
  (forall h x, f_out f h = Some x -> rok (g x) = negb (h Tmp =? 0)) ->
  (forall j, check (arch_mm T) (f_prog f) [Tmp] [] None None (goodv T c okT) j = true) -> ord_fn T c g f.
Proof.
  intros O C. eapply ord_intro; [apply brs_none|exact C|]. intros os s0 its sf v x b P0 Rn E Ag Out_ K.
  unfold okT in K. destruct (look [Tmp] v Tmp) as [z|] eqn:L; [|discriminate K]. injection K as <-. rewrite (O _ _ Out_). now rewrite (Ag Tmp z L).
Qed.
Ltac lret := intros h x O; unfold la_cas_fn, la_cas_sub_fn, create_sub_word_mask_values in O; cbn [f_out] in O; unfold ret_cas in O; match type of O with (if ?b then _ else _) = _ => destruct b; [injection O as <-; reflexivity|discriminate O] end.
Ltac ordT := apply okT_spec; [lret|chk].
Lemma la_ord c : ord_arch (Loongarch c).
Proof.
  constructor.
  - intros n o a f H; unfold t_load, la_load in H; destruct o; lat H; splits H; injection H as <-; ordn.
  - intros n o a v0 f H; unfold t_store, la_store in H; destruct o; lat H; splits H; injection H as <-; first [solve [ords true]|ordn].
  - intros n o a v0 f H; unfold t_swap, la_swap in H; destruct o; lat H; splits H; injection H as <-; ordk [Tmp].
  - intros n s t a x0 y0 f [N1 N2] H; unfold t_cas, la_cas in H; destruct s, t; try congruence; clear N1 N2; lat H; splits H; injection H as <-; ordT.
  - intros n s t a x0 y0 f [N1 N2] H; unfold t_casw, t_cas, la_cas in H; destruct s, t; try congruence; clear N1 N2; lat H; splits H; injection H as <-; ordT.
Qed.
