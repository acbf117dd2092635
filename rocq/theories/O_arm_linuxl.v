(* L3: the accesses of the arch_legacy/arm_linux.rs blocks are ordered as the ordering argument asks *)
From Verif Require Import Order O_arm_linux Floyd Arch_arm_linuxl P_arm_linuxl.
Definition jst (k : nat) (f : regs) : Prop :=
  match k with
  | 7%nat => f AR0 <> 0
  | 8%nat => f FZ = 0
  | 9%nat => False
  | _ => True
  end.
Lemma alg_store64_nw T e b a v os s0 its sf x : pc s0 = O ->
  irun (arch_mm T) e (f_prog (alg_store64_fn e b a v)) os s0 tn0 = Some (its, sf) -> at_exit (f_prog (alg_store64_fn e b a v)) sf ->
  f_out (alg_store64_fn e b a v) (rf sf) = Some x -> (forall k, ~ is_write its k) -> true = false /\ rok ((fun _ => RUnit) x) = false.
Proof.
  intros P Rn E O N. exfalso.
  assert (jst (pc sf) (rf sf)) as G.
  { eapply irun_floyd; [|exact Rn|exact N|rewrite P; exact Logic.I]. clear. unfold alg_store64_fn. cbn [f_prog]. unfold mov, kuser_cmpxchg64, cmp0, bne_z. fstep.
    all: cbn [jst] in *; try contradiction; try (injection X as <- <-; cbn [pc rf jst]; try exact Logic.I; auto; fail).
    - destruct (_ && _); [discriminate W|]. injection X as <- <-. cbn [pc rf jst upds upd reg_beq]. apply Z.eqb_neq, al_nz0.
    - injection X as <- <-. cbn [pc rf jst upd reg_beq map op1]. now rewrite (proj2 (Z.eqb_neq _ _) H).
    - cbn [br1 map] in X. rewrite H in X. injection X as <- <-. exact Logic.I. }
  unfold at_exit in E. cbn [f_prog alg_store64_fn length] in E. rewrite E in G. exact G.
Qed.
Lemma alg_ord e b ver : ord_arch (ArmLinuxL e b ver).
Proof.
  destruct b as [b1 b2 b3 b4]. constructor.
  - intros n o a f H; unfold t_load, alg_load in H; destruct o; alt H; splits H; injection H as <-; try (destruct e, b4); ordn.
  - intros n o a v0 f H; unfold t_store, alg_store in H; destruct o; alt H; splits H; injection H as <-;
    first [apply (ord_nw _ _ _ _ [] true); [destruct e, b4; chk|intros os s0 its sf x; apply alg_store64_nw]|destruct e, b4; solve [ordn]].
  - intros n o a v0 f H; unfold t_swap, alg_swap in H; destruct o; alt H; splits H; injection H as <-; destruct e, b4; ordn.
  - intros n s t a x0 y0 f [N1 N2] H; unfold t_cas, alg_cas in H; destruct s, t; try congruence; clear N1 N2; alt H; splits H; injection H as <-;destruct e, b4; ordn.
  - intros n s t a x0 y0 f [N1 N2] H; unfold t_casw, t_cas, alg_cas in H; destruct s, t; try congruence; clear N1 N2; alt H; splits H; injection H as <-;destruct e, b4; ordn.
Qed.
