(* Executions that meet the hypotheses of C42: the data shared by the two threads of Ex_lock.v, and what the theorem says of them. *)
From Verif Require Import Interleave CallLink Prop_sc Ex_graph Ex_sc Ex_mp SeqCst Prop_order Examples Prop_mp Prop_hb Merge Prop_drf Prop_drfsc Prop_lock Prop_locksc Ex_lock.
From Verif Require Import Arch_riscv Arch_powerpc Arch_aarch64.
Definition the_lock (a n : Z) : Prop := a = 0x2000 /\ n = 4.
Definition ls_met (T : arch) : Prop := t_ie T = None /\ t_wf T /\ execution T (lk_of T) /\ lock_system T (lk_of T) the_lock /\ guarded T (lk_of T) the_lock /\
  exists x y, conflict (lk_of T) x y /\ fst x <> fst y.
Lemma lk_call T t q c r its : call_at (lk_of T) t q c r its -> (t < 2)%nat /\ ((q = 0%nat /\ c = lk_take /\ r = RVal 0) \/ (q = 2%nat /\ c = lk_give /\ r = RUnit)).
Proof.
  intros C. unfold call_at in C. destruct t as [|[|t]]; [| |destruct q; discriminate C]; destruct q as [|[|[|q]]]; try discriminate C; try (destruct q; discriminate C); injection C as <- <- _; (split; [lia|]); auto.
Qed.
Lemma lk_plain T x v : plain_at (lk_of T) x v -> (fst x < 2)%nat /\ v = data (Nat.eqb (fst x) 0) /\ inside (lk_of T) x (fst x) 0 2.
Proof.
  destruct x as [t k]. intros (q & its & i & Hq & A & E). cbn [fst snd] in *. destruct (seg_split _ _ _ _ Hq) as (_ & _ & _ & _ & B). cbn [seg_its] in B.
  assert ((t < 2)%nat /\ q = 1%nat /\ its = [IE (data (Nat.eqb t 0))]) as (Lt & -> & ->).
  { destruct t as [|[|t]]; [| |destruct q; discriminate Hq]; destruct q as [|[|[|q]]]; try discriminate Hq; try (destruct q; discriminate Hq); injection Hq as <-; (split; [lia|]); auto. }
  cbn [length] in B. destruct i as [|i]; [|destruct i; discriminate A]. injection A as <-. split; [exact Lt|]. split; [reflexivity|]. split; (split; [reflexivity|]); cbn [snd]; lia.
Qed.
Lemma ls_of T : lk_met T -> ls_met T.
Proof.
  intros (Ie & W & X & K & H0 & H1 & x0 & y0 & Ix & Iy & Ax & Ay). split; [exact Ie|]. split; [exact W|]. split; [exact X|]. split.
  - constructor.
    + intros t q c r its C. destruct (lk_call _ _ _ _ _ _ C) as (_ & [(_ & -> & _)|(_ & -> & _)]); split; reflexivity.
    + intros a n [-> ->]. exact K.
    + intros a n a' n' [-> ->] [-> ->]. now left.
  - split.
    + constructor.
      * intros x y (v & u & b & Px & Py & _) Ne. destruct (lk_plain _ _ _ Px) as (Lx & _ & Jx), (lk_plain _ _ _ Py) as (Ly & _ & Jy). exists 0x2000, 4, O, 2%nat, O, 2%nat. split; [split; reflexivity|].
        assert (forall t, (t < 2)%nat -> holds T (lk_of T) 0x2000 4 t 0 2) as Hs by (intros [|[|t]] Q; [exact H0|exact H1|lia]).
        split; [exact (Hs _ Lx)|]. split; [exact Jx|]. split; [exact (Hs _ Ly)|exact Jy].
      * intros x v b t q c r its Px Cv C Ic. destruct (lk_plain _ _ _ Px) as (_ & -> & _). unfold covers in Cv. destruct (lk_call _ _ _ _ _ _ C) as (_ & [(_ & -> & _)|(_ & -> & _)]); unfold in_cell in Ic; cbn in Ic, Cv; lia.
      * intros x v Px. destruct (lk_plain _ _ _ Px) as (_ & -> & _). reflexivity.
      * exists 2%nat. intros [|[|t]] Q; [lia|lia|reflexivity].
    + assert (forall t, (t < 2)%nat -> plain_at (lk_of T) (t, base (lk_of T) t 1) (data (Nat.eqb t 0))) as P.
      { intros [|[|t]] Q; [| |lia]; [exists 1%nat, [IE (data true)], O|exists 1%nat, [IE (data false)], O]; (split; [reflexivity|]); (split; [reflexivity|]); now rewrite Nat.add_0_r. }
      exists (O, base (lk_of T) 0 1), (1%nat, base (lk_of T) 1 1). split; [|discriminate]. exists (data true), (data false), 0x1000. split; [exact (P O ltac:(lia))|]. split; [exact (P 1%nat ltac:(lia))|].
      split; [unfold covers; cbn; lia|]. split; [unfold covers; cbn; lia|]. now left.
Qed.
Example ls_riscv : ls_met (Riscv rv64).
Proof. exact (ls_of _ lk_riscv). Qed.
Example ls_powerpc : ls_met (Powerpc pp64).
Proof. exact (ls_of _ lk_powerpc). Qed.
Example ls_aarch64 : ls_met (Aarch64 aa0).
Proof. exact (ls_of _ lk_aarch64). Qed.
