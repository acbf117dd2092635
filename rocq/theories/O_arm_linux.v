(* L3: the accesses of the arm_linux blocks are ordered as the ordering argument asks (all orders, all sizes, both endiannesses) *)
From Verif Require Import Order Arch_arm_linux.
Ltac alt H := cbn [with_table al_load_tbl al_store_tbl] in H.
(* the carry flag says whether the kernel helper stored *)
Lemma upds_FC b (f : regs) (j z : Z) : upds f (if b : bool then [(AR0, 0); (FC, 1); (FZ, j); (AR3, j); (AR5, j)] else [(AR0, z); (FC, 0); (FZ, j); (AR3, j); (AR5, j)]) FC = if b then 1 else 0.
Proof. destruct b; reflexivity. Qed.
Ltac zok := cbn [f_prog al_store64_fn]; bok; [intros k j v f; rewrite upds_FC; destruct (_ && _); reflexivity].
Lemma al_ord e po ver : ord_arch (ArmLinux e po ver).
Proof.
  constructor.
  - intros n o a f H; unfold t_load, al_load in H; destruct o; alt H; splits H; injection H as <-; try (destruct po, e); ordn.
  - intros n o a v0 f H; unfold t_store, al_store in H; destruct o; alt H; splits H; injection H as <-; 
    destruct po, e; first [solve [ordn]|eapply (ord_simple _ _ _ _ [FC] None (Some (FC, 1, 0))); [zok|chk]].
  - intros n o a v0 f H; unfold t_swap, al_swap in H; destruct o; alt H; splits H; injection H as <-; destruct po, e; ordn.
  - intros n s t a x0 y0 f [N1 N2] H; unfold t_cas, al_cas in H; destruct s, t; try congruence; clear N1 N2; alt H; splits H; injection H as <-;destruct po, e; ordn.
  - intros n s t a x0 y0 f [N1 N2] H; unfold t_casw, t_cas, al_cas in H; destruct s, t; try congruence; clear N1 N2; alt H; splits H; injection H as <-;destruct po, e; ordn.
Qed.
