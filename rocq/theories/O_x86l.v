(* L3: the accesses of the arch_legacy/x86.rs blocks are ordered as the ordering argument asks *)
From Verif Require Import Order Arch_x86l.
Ltac xt H := cbn [with_table x_store_tbl x_store64_tbl] in H.
Lemma upds_FZ (b : bool) (f : regs) (x y : Z) : upds f (if b then [(FZ, 1)] else [(FZ, 0); (XD, x); (XA, y)]) FZ = if b then 1 else 0.
Proof. destruct b; reflexivity. Qed.
Ltac zok := cbn [f_prog xl_store64_fn xl_store128_fn x_store_wide xl_wide x_wide128 x_sse x_x87 x_sse2]; bok; [intros k j v f; rewrite upds_FZ; destruct (_ =? _); reflexivity].
Ltac ordZ := eapply (ord_simple _ _ _ _ [FZ] None (Some (FZ, 1, 0))); [zok|chk].
Lemma xl_ord c b : ord_arch (X86L c b).
Proof.
  destruct c as [w pw cx c8 c16 ss s2 x87]. constructor.
  - intros n o a f H; unfold t_load, xl_load in H; splits H; injection H as <-; destruct ss, s2, x87, o; ordn.
  - intros n o a v0 f H; unfold t_store, xl_store in H; destruct o; xt H; splits H; try (destruct ss, s2, x87; cbn [xl_wide x_store_wide x_sse x_sse2 x_x87] in H); try discriminate H; injection H as <-; 
     first [solve [ords true]|ordZ].
  - intros n o a v0 f H; unfold t_swap, xl_swap in H; splits H; injection H as <-; destruct o; ordn.
  - intros n s t a x0 y0 f [N1 N2] H; unfold t_cas, xl_cas in H; splits H; injection H as <-; destruct s, t; try congruence; clear N1 N2; ordn.
  - intros n s t a x0 y0 f [N1 N2] H; unfold t_casw, t_cas, xl_cas in H; splits H; injection H as <-; destruct s, t; try congruence; clear N1 N2; ordn.
Qed.
