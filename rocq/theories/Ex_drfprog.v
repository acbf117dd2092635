(* A program that meets the hypotheses of C41, with an execution of it, on RISC-V, PowerPC, AArch64: data handed over through a flag. *)
From Verif Require Import Interleave CallLink Prop_sc Ex_graph Ex_sc Ex_mp Ex_hb SeqCst Prop_order Examples Prop_mp Prop_hb Merge Prop_drf Prop_drfsc Ex_drf Prop_drfprog.
From Verif Require Import Arch_riscv Arch_powerpc Arch_aarch64.

(* thread 0: writes the data, then B.store(7, SeqCst); thread 1: if B.load(SeqCst) == 7, reads the data *)
Definition reads_data (v : ev) : Prop := e_w v = false /\ e_t v = false /\ e_a v = 0x1000 /\ e_n v = 4.
Definition handover (t : nat) (h : list act) : Prop :=
  match t with
  | O => exists h', [AMem (data true); ACall st_B RUnit] = h ++ h'
  | S O => h = [] \/ (exists z, h = [ACall ld_B (RVal z)]) \/ exists v, reads_data v /\ h = [ACall ld_B (RVal 7); AMem v]
  | _ => h = []
  end.
Lemma prefix2 {A} (a b : A) h h' : [a; b] = h ++ h' -> h = [] \/ h = [a] \/ h = [a; b].
Proof. destruct h as [|x [|y [|z h]]]; cbn; intros H; [now left|injection H as <- _; auto|injection H as <- <- _; auto|discriminate H]. Qed.
Lemma handover_in t h a : handover t h -> In a h -> (a = ACall st_B RUnit \/ exists z, a = ACall ld_B (RVal z)) \/ a = AMem (data true) \/ exists v, reads_data v /\ a = AMem v.
Proof.
  intros H I. destruct t as [|[|t]]; cbn in H.
  - destruct H as (h' & E). destruct (prefix2 _ _ _ _ E) as [->|[->| ->]]; cbn in I; intuition (subst; auto).
  - destruct H as [->|[(z & ->)|(v & R & ->)]]; cbn in I; intuition (subst; eauto 6).
  - subst h. destruct I.
Qed.
Lemma handover_program : sc_program handover.
Proof.
  constructor.
  - intros t h h' H. destruct t as [|[|t]]; cbn in *.
    + destruct H as (h2 & E). exists (h' ++ h2). now rewrite app_assoc.
    + destruct h as [|a [|b [|c h]]]; [now left| | |].
      * destruct H as [E|[(z & E)|(v & R & E)]]; [discriminate E| |]; cbn in E; injection E; intros; subst; right; left; eauto.
      * destruct H as [E|[(z & E)|(v & R & E)]]; [discriminate E|discriminate E|]. cbn in E. injection E; intros; subst. right. right. eauto.
      * destruct H as [E|[(z & E)|(v & R & E)]]; discriminate E.
    + now apply app_eq_nil in H.
  - intros t h c r H I. destruct (handover_in _ _ _ H I) as [[Q|(z & Q)]|[Q|(v & _ & Q)]]; try discriminate Q; injection Q as -> _; reflexivity.
  - intros t h c r t' h' c' r' H I H' I'. left. destruct (handover_in _ _ _ H I) as [[Q|(z & Q)]|[Q|(v & _ & Q)]]; try discriminate Q; injection Q as -> _;
      (destruct (handover_in _ _ _ H' I') as [[Q|(z' & Q)]|[Q|(v & _ & Q)]]; try discriminate Q; injection Q as -> _); reflexivity.
  - intros t h c r t' h' v b H I H' I' Cv Ic. assert (op_cell c = (0x3000, 4)) as Ec by (destruct (handover_in _ _ _ H I) as [[Q|(z & Q)]|[Q|(v' & _ & Q)]]; try discriminate Q; injection Q as -> _; reflexivity).
    unfold in_cell in Ic. rewrite Ec in Ic. cbn in Ic. destruct (handover_in _ _ _ H' I') as [[Q|(z & Q)]|[Q|(v' & (_ & _ & A & N) & Q)]]; try discriminate Q; injection Q as ->; unfold covers in Cv; [cbn in Cv|rewrite A, N in Cv]; lia.
  - intros t h v H I. destruct (handover_in _ _ _ H I) as [[Q|(z & Q)]|[Q|(v' & (_ & A & _) & Q)]]; try discriminate Q; injection Q as ->; [reflexivity|exact A].
Qed.
Lemma handover_next0 h v : handover 0 (h ++ [AMem v]) -> h = [].
Proof. intros (h' & E). destruct (prefix2 _ _ _ _ E) as [Q|[Q|Q]]; destruct h as [|a [|b [|c h]]]; try discriminate Q; reflexivity. Qed.
Lemma handover_next1 h v : handover 1 (h ++ [AMem v]) -> h = [ACall ld_B (RVal 7)].
Proof. intros [Q|[(z & Q)|(v' & _ & Q)]]; destruct h as [|a [|b [|c h]]]; try discriminate Q; injection Q as ->; reflexivity. Qed.
Lemma handover_free (step : act -> mem -> mem -> Prop) : (forall z m m', step (ACall ld_B (RVal z)) m m' -> exists e, z = rd e m 0x3000 4) -> sc_race_free step handover (fun _ => 0).
Proof.
  intros Hs H mf M HP. assert (forall v1 v2, handover 0 (H 0%nat ++ [AMem v1]) -> handover 1 (H 1%nat ++ [AMem v2]) -> False) as K.
  { intros v1 v2 H1 H2. apply handover_next0 in H1. apply handover_next1 in H2. remember (fun _ : Z => 0) as m0 eqn:Em. destruct M as [Hp m E|Hp P' t a l m m' mf E _ _ St _]; [rewrite E in H2; discriminate H2|].
    destruct t as [|[|t]]; [congruence| |specialize (HP (S (S t))); cbn in HP; congruence]. rewrite H2 in E. injection E as <- _. destruct (Hs _ _ _ St) as (e & Q). rewrite Em in Q. destruct e; vm_compute in Q; discriminate Q. }
  intros t1 t2 v1 v2 b Ne H1 H2. exfalso. destruct t1 as [|[|t1]], t2 as [|[|t2]]; cbn in Ne; try congruence;
    try (cbn in H1; destruct (H (S (S t1))); discriminate H1); try (cbn in H2; destruct (H (S (S t2))); discriminate H2).
  - exact (K _ _ H1 H2).
  - exact (K _ _ H2 H1).
Qed.
Definition dr_time (n : nat) (x : eid) : nat := match fst x, snd x with O, O => 0 | O, _ => 1 | S _, k => if (k <? n)%nat then 2 else 3 end.
Lemma dr_in_time c2 c3 r2 r3 its2 its3 i2 i3 u1 u2 v1 m0 : in_time (dr c2 c3 r2 r3 its2 its3 i2 i3 u1 u2 v1 m0) (dr_time (length its3)).
Proof.
  set (G := dr c2 c3 r2 r3 its2 its3 i2 i3 u1 u2 v1 m0). assert (forall t k, exists_at G (t, k) -> (t = 0 /\ (k = 0 \/ in_call G (0, k) 0 1) \/ t = 1 /\ (in_call G (1, k) 1 0 /\ k < length its3 \/ k = length its3))%nat) as Ex.
  { intros t k E. unfold exists_at in E. cbn [fst snd] in E. destruct t as [|[|t]].
    - left. split; [reflexivity|]. change (items G 0) with ([IE u1] ++ its2 ++ []) in E. rewrite !app_length in E. cbn in E. destruct k as [|k]; [now left|right]. split; [reflexivity|]. split; [exists c2, r2, its2; reflexivity|]. unfold base, flat. cbn. rewrite app_nil_r. lia.
    - right. split; [reflexivity|]. change (items G 1) with (its3 ++ [IE v1] ++ []) in E. rewrite !app_length in E. cbn in E. destruct (Nat.lt_ge_cases k (length its3)) as [L|L]; [left|right; lia]. split; [|exact L]. split; [reflexivity|]. split; [exists c3, r3, its3; reflexivity|].
      unfold base, flat. cbn. rewrite app_nil_r. lia.
    - cbn in E. lia. }
  assert (forall x t q, in_call G x t q -> (t = 0 /\ q = 1 /\ fst x = 0 /\ 0 < snd x \/ t = 1 /\ q = 0 /\ fst x = 1 /\ snd x < length its3)%nat) as Ic.
  { intros x t q (Et & (c & r & its & C) & L1 & L2). destruct (dr_calls _ _ _ _ _ _ _ _ _ _ _ _ _ _ _ _ _ C) as [(-> & -> & -> & -> & ->)|(-> & -> & -> & -> & ->)]; unfold base, flat in L1, L2; cbn in L1, L2; rewrite ?app_nil_r in L2; [left|right]; repeat split; auto; lia. }
  constructor.
  - intros [t k] [t' k'] Ex1 Ey [Et L]. cbn [fst snd] in *. subst t'. unfold dr_time. cbn [fst snd]. destruct t as [|t]; [destruct k, k'; lia|]. destruct (Nat.ltb_spec k (length its3)), (Nat.ltb_spec k' (length its3)); lia.
  - intros [t1 k1] [t2 k2] t q I1 I2. destruct (Ic _ _ _ I1) as [(-> & -> & A & B)|(-> & -> & A & B)], (Ic _ _ _ I2) as [(Q1 & Q2 & A' & B')|(Q1 & Q2 & A' & B')]; try discriminate Q1; cbn [fst snd] in *; subst t1 t2; unfold dr_time; cbn [fst snd].
    + destruct k1, k2; lia.
    + rewrite (proj2 (Nat.ltb_lt _ _) B), (proj2 (Nat.ltb_lt _ _) B'). reflexivity.
  - intros [t1 k1] [t2 k2] E1 E2 Ef. unfold dr_time in Ef. cbn [fst snd] in Ef. destruct (Ex _ _ E1) as [[-> [-> |I1]]|[-> [[I1 L1]| -> ]]], (Ex _ _ E2) as [[-> [-> |I2]]|[-> [[I2 L2]| -> ]]]; auto.
    + destruct k2; [left; reflexivity|discriminate Ef].
    + destruct (k2 <? length its3)%nat; discriminate Ef.
    + destruct (length its3 <? length its3)%nat; discriminate Ef.
    + destruct k1; [left; reflexivity|discriminate Ef].
    + right. exists O, 1%nat. auto.
    + destruct k1, (k2 <? length its3)%nat; discriminate Ef.
    + destruct k1, (length its3 <? length its3)%nat; discriminate Ef.
    + destruct (k1 <? length its3)%nat; discriminate Ef.
    + destruct k2, (k1 <? length its3)%nat; discriminate Ef.
    + right. exists 1%nat, O. auto.
    + rewrite (proj2 (Nat.ltb_lt _ _) L1), Nat.ltb_irrefl in Ef. discriminate Ef.
    + rewrite Nat.ltb_irrefl in Ef. discriminate Ef.
    + rewrite Nat.ltb_irrefl in Ef. destruct k2; discriminate Ef.
    + rewrite (proj2 (Nat.ltb_lt _ _) L2), Nat.ltb_irrefl in Ef. discriminate Ef.
  - intros b w r [(-> & -> & _)|(-> & -> & _)]; unfold dr_time; cbn [fst snd].
    + lia.
    + cbn [Nat.add]. destruct (i3 <? length its3)%nat; repeat constructor.
Qed.
Definition prog_met (T : arch) : Prop := t_ie T = None /\ t_wf T /\ sc_program handover /\ sc_race_free (act_step T) handover (g_init (dr_of T)) /\ sc_race_free (act_spec (t_e T)) handover (g_init (dr_of T)) /\ execution T (dr_of T) /\
  (forall t, handover t (acts (g_thr (dr_of T) t))) /\ (exists N, forall t, (N <= t)%nat -> g_thr (dr_of T) t = []) /\ (exists f, in_time (dr_of T) f) /\
  exists x y, fst x <> fst y /\ conflict (dr_of T) x y.
Lemma prog_by T : dr_met T -> prog_met T.
Proof.
  intros (Ie & W & X & Cl & _ & _ & A0 & A1 & Cf). split; [exact Ie|]. split; [exact W|]. split; [exact handover_program|]. split; [apply handover_free; intros z m m' [Q _]; eauto|]. split; [apply handover_free; intros z m m' [Q _]; eauto|]. split; [exact X|].
  split; [|split; [exact (cl_fin _ Cl)|split; [eexists; apply dr_in_time|exact Cf]]].
  intros [|[|t]]; [exists []; now rewrite A0|right; right; exists (data false); split; [repeat split|exact A1]|reflexivity].
Qed.
Example prog_riscv : prog_met (Riscv rv64).
Proof. exact (prog_by _ dr_riscv). Qed.
Example prog_powerpc : prog_met (Powerpc pp64).
Proof. exact (prog_by _ dr_powerpc). Qed.
Example prog_aarch64 : prog_met (Aarch64 aa0).
Proof. exact (prog_by _ dr_aarch64). Qed.
