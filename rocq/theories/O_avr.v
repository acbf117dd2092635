(* L3: the accesses of the avr blocks are ordered as the ordering argument asks (all orders, all sizes) *)
From Verif Require Import Order Arch_avr.
Lemma av_n n : ((n =? 1) || (n =? 2) = true)%Z -> n = 1 \/ n = 2.
Proof. lia. Qed.
Lemma av_ord x y : ord_arch (Avr x y).
Proof.
  constructor.
  - intros n o a f H; unfold t_load, av_load in H; splits H; injection H as <-; destruct o, x; ordn.
  - intros n o a v0 f H; unfold t_store, av_store in H; splits H; injection H as <-; destruct o, y; ordn.
  - intros n o a v0 f H; unfold t_swap, av_swap in H; splits H; injection H as <-; apply av_n in Heqb; destruct Heqb; subst n; destruct o, x, y; ordn.
  - intros n s t a x0 y0 f [N1 N2] H; unfold t_cas, av_cas in H; splits H; injection H as <-; apply av_n in Heqb; destruct Heqb; subst n; destruct s, t; try congruence; clear N1 N2; destruct x, y; ordn.
  - intros n s t a x0 y0 f [N1 N2] H; unfold t_casw, t_cas, av_cas in H; splits H; injection H as <-; apply av_n in Heqb; destruct Heqb; subst n; destruct s, t; try congruence; clear N1 N2; destruct x, y; ordn.
Qed.
