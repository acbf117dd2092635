(* L3: the accesses of the x86 blocks are ordered as the ordering argument asks (all orders, all sizes, all configurations) *)
From Verif Require Import Order Arch_x86.
Ltac xt H := cbn [with_table x_store_tbl x_store64_tbl] in H.
(* ZF says whether cmpxchg8b / cmpxchg16b stored *)
Lemma upds_FZ (b : bool) (f : regs) (x y : Z) : upds f (if b then [(FZ, 1)] else [(FZ, 0); (XD, x); (XA, y)]) FZ = if b then 1 else 0.
Proof. destruct b; reflexivity. Qed.
Ltac zok := cbn [f_prog x_store64_fn x_store128_fn x_store_wide x_wide128 x_sse x_x87]; bok; [intros k j v f; rewrite upds_FZ; destruct (_ =? _); reflexivity].
Ltac ordZ := eapply (ord_simple _ _ _ _ [FZ] None (Some (FZ, 1, 0))); [zok|chk].
Lemma x_ord c : ord_arch (X86 c).
Proof.
  destruct c as [w pw cx c8 c16 ss s2 x87]. constructor.
  - intros n o a f H; unfold t_load, x_load in H; splits H; injection H as <-; destruct ss, s2, x87, o; ordn.
  - intros n o a v0 f H; unfold t_store, x_store in H; destruct o; xt H; splits H; try (destruct ss, x87; cbn [x_store_wide x_sse x_x87] in H); try discriminate H; injection H as <-; 
     first [solve [ords true]|ordZ].
  - intros n o a v0 f H; unfold t_swap, x_swap in H; splits H; injection H as <-; destruct o; ordn.
  - intros n s t a x0 y0 f [N1 N2] H; unfold t_cas, x_cas in H; splits H; injection H as <-; destruct s, t; try congruence; clear N1 N2; ordn.
  - intros n s t a x0 y0 f [N1 N2] H; unfold t_casw, t_cas, x_cas in H; splits H; injection H as <-; destruct s, t; try congruence; clear N1 N2; ordn.
Qed.
