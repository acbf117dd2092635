(* L3: the accesses of the arch_legacy/loongarch.rs blocks are ordered as the ordering argument asks *)
From Verif Require Import Order O_loongarch Floyd Arch_loongarchl P_loongarchl Fields.
Definition jword (k : nat) (f : regs) : Prop :=
  match k with
  | 7%nat => f R = 0
  | 8%nat => False
  | 9%nat | 10%nat | 11%nat | 12%nat | 13%nat => f Tmp <> f Old
  | 14%nat => f R <> 0
  | 15%nat => f R = 0
  | _ => True
  end.
Ltac lu := unfold pld, pst, bne_, beqz_, mov, xor_, and_, andn_, or_, sllw, srlw, addiw0, sltui1, la_ll, la_sc.
Ltac fin X := injection X as <- <-; cbn [pc rf].
Lemma lal_cas_nw T b n a old new t os s0 its sf x : pc s0 = O ->
  irun (arch_mm T) LE (f_prog (lal_cas_fn b n a old new t)) os s0 tn0 = Some (its, sf) -> at_exit (f_prog (lal_cas_fn b n a old new t)) sf ->
  f_out (lal_cas_fn b n a old new t) (rf sf) = Some x -> (forall k, ~ is_write its k) -> false = false /\ rok ((fun r => RCas (fst r) (snd r)) x) = false.
Proof.
  intros P Rn E O N. split; auto.
  assert (jword (pc sf) (rf sf)) as G.
  { eapply irun_floyd; [|exact Rn|exact N|rewrite P; exact Logic.I]. clear. unfold lal_cas_fn. cbn [f_prog]. lu. fstep.
    all: cbn [jword] in *; try contradiction; try (fin X; cbn [jword]; try exact Logic.I; auto; fail).
    - cbv [br2 map] in X. destruct (Z.eqb_spec (f Tmp) (f Old)); cbn [negb] in X; fin X; cbn [jword]; auto.
    - rewrite W in X. fin X. cbn [jword]. reflexivity.
    - cbn [br1 map] in X. rewrite H in X. fin X. exact Logic.I.
    - fin X. cbn [jword]. cbn [upd reg_beq map op2]. rewrite Z.lxor_eq_0_iff. exact H.
    - fin X. cbn [jword]. cbn [upd reg_beq map op1]. now rewrite (proj2 (Z.eqb_neq _ _) H). }
  unfold at_exit in E. cbn [f_prog lal_cas_fn length] in E. rewrite E in G. cbn [jword] in G.
  cbn [f_out lal_cas_fn] in O. rewrite G in O. injection O as <-. reflexivity.
Qed.
Definition cn (x : Z) : Prop := sext 32 64 x = x.
Lemma cn_land x y : cn x -> cn y -> cn (Z.land x y).
Proof. unfold cn. intros H1 H2. rewrite <- H1, <- H2 at 1. rewrite sext_land by lia. rewrite sext_idem by lia. rewrite <- sext_land by lia. now rewrite H1, H2. Qed.
Lemma cn_sext x : cn (sext 32 64 x).
Proof. apply sext_idem; lia. Qed.
Definition jbase (f : regs) : Prop := cn (f Old) /\ cn (f Mask) /\ f AR7 = f Old /\ f AR6 = f Mask.
Definition jfail (f : regs) : Prop := cn (f Old) /\ cn (f Mask) /\ cn (f AR0) /\ Z.land (f AR0) (f Mask) <> f Old.
Definition jsub (k : nat) (f : regs) : Prop :=
  match k with
  | 5%nat => cn (f Old)
  | 6%nat => cn (f Old) /\ f AR7 = f Old
  | 7%nat => cn (f Old) /\ cn (f Mask) /\ f AR7 = f Old
  | 8%nat | 9%nat => jbase f
  | 10%nat => jbase f /\ cn (f AR0)
  | 11%nat => jbase f /\ cn (f AR0) /\ f AR1 = Z.land (f AR0) (f AR6)
  | 12%nat | 13%nat | 14%nat => jbase f
  | 15%nat => jbase f /\ f AR1 = 0
  | 16%nat => False
  | 17%nat | 18%nat | 19%nat | 20%nat | 21%nat | 22%nat => jfail f
  | 23%nat => cn (f R) /\ f R <> f Old
  | 24%nat => f R <> f Old
  | 25%nat => f R <> 0
  | 26%nat => f R = 0
  | _ => True
  end.
Lemma lal_cas_sub_nw T c b n a old new t os s0 its sf x : pc s0 = O ->
  irun (arch_mm T) LE (f_prog (lal_cas_sub_fn c b n a old new t)) os s0 tn0 = Some (its, sf) -> at_exit (f_prog (lal_cas_sub_fn c b n a old new t)) sf ->
  f_out (lal_cas_sub_fn c b n a old new t) (rf sf) = Some x -> (forall k, ~ is_write its k) -> false = false /\ rok ((fun r => RCas (fst r) (snd r)) x) = false.
Proof.
  intros P Rn E O N. split; auto. unfold lal_cas_sub_fn in *. destruct (create_sub_word_mask_values A_loongarch64 LE (la_uw c) 64 n a) as [[dst shift] mask].
  cbn [f_prog f_out] in *.
  assert (jsub (pc sf) (rf sf)) as G.
  { eapply irun_floyd; [|exact Rn|exact N|rewrite P; exact Logic.I]. clear. lu. fstep.
    all: cbn [jsub] in *; try contradiction; try (fin X; cbn [jsub]; try exact Logic.I; auto; fail).
    all: unfold jbase, jfail in *.
    - fin X. cbn [jsub upd reg_beq map op2]. apply sx_sll_idem.
    - fin X. cbn [jsub upd reg_beq map op2]. destruct H as [H1 H2]. split; [exact H1|]. split; [apply sx_sll_idem|exact H2].
    - fin X. cbn [jsub upd reg_beq map op1]. unfold jbase. cbn [upd reg_beq]. destruct H as (H1 & H2 & H3). auto.
    - fin X. cbn [jsub upd reg_beq]. unfold jbase. cbn [upd reg_beq]. split; [exact H|]. apply cn_sext.
    - fin X. cbn [jsub upd reg_beq map op2]. unfold jbase. cbn [upd reg_beq]. destruct H as (H1 & H2). auto.
    - cbv [br2 map] in X. destruct H as ((H1 & H2 & H3 & H4) & H5 & H6). destruct (Z.eqb_spec (f AR1) (f AR7)) as [Q|Q]; cbn [negb] in X; fin X; cbn [jsub]; [unfold jbase; auto|].
      unfold jfail. rewrite H6, H3, H4 in Q. auto.
    - rewrite W in X. fin X. cbn [jsub upd reg_beq]. unfold jbase. cbn [upd reg_beq]. auto.
    - cbn [br1 map] in X. destruct H as [H1 H2]. rewrite H2 in X. fin X. cbn [jsub]. unfold jbase. auto.
    - fin X. cbn [jsub upd reg_beq map op2]. destruct H as (H1 & H2 & H3 & H4). split; [apply cn_land; auto|exact H4].
    - fin X. cbn [jsub upd reg_beq map op1]. destruct H as (H1 & H2). now rewrite H1.
    - fin X. cbn [jsub upd reg_beq map op2]. rewrite Z.lxor_eq_0_iff. auto.
    - fin X. cbn [jsub upd reg_beq map op1]. now rewrite (proj2 (Z.eqb_neq _ _) H). }
  unfold at_exit in E. cbn [length] in E. rewrite E in G. cbn [jsub] in G.
  rewrite G in O. injection O as <-. reflexivity.
Qed.
Ltac ordW k L := apply (ord_nw _ _ _ _ k false); [chk|intros os s0 its sf x; apply L].
Lemma lal_ord c b : ord_arch (LoongarchL c b).
Proof.
  constructor.
  - intros n o a f H; unfold t_load, lal_load in H; destruct o; lat H; splits H; injection H as <-; ordn.
  - intros n o a v0 f H; unfold t_store, lal_store in H; destruct o; lat H; splits H; injection H as <-; first [solve [ords true]|ordn].
  - intros n o a v0 f H; unfold t_swap, lal_swap in H; destruct o; lat H; splits H; injection H as <-; first [ordk [Tmp]|ordk [Tmp2]].
  - intros n s t a x0 y0 f [N1 N2] H; unfold t_cas, lal_cas in H; destruct s, t; try congruence; clear N1 N2; lat H; splits H; injection H as <-;
      first [ordW [R] (lal_cas_nw (LoongarchL c b))|ordW [AR1] (lal_cas_sub_nw (LoongarchL c b))].
  - intros n s t a x0 y0 f [N1 N2] H; unfold t_casw, t_cas, lal_cas in H; destruct s, t; try congruence; clear N1 N2; lat H; splits H; injection H as <-;
      first [ordW [R] (lal_cas_nw (LoongarchL c b))|ordW [AR1] (lal_cas_sub_nw (LoongarchL c b))].
Qed.
