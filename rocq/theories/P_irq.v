(* Proofs for the interrupt-masking targets. *)
From Verif Require Import Sym Prog Irq Arch_avr Arch_msp430 Wide.

Section GI.
  Context {A : Type} (e : endian) (ie : regs -> bool) (f : fn A) (spec : mem -> mem -> A -> Prop).
  Let p := f_prog f.
  Definition GI (n : nat) (cur : option (mem * mem)) (s : tst) (Phi : trace -> option (mem * mem) -> tst -> Prop) : Prop :=
    forall os, length os = n -> wf_oracles os ->
      match run_irq e p ie os cur s with None => False | Some (t, c, sf) => Phi t c sf end.
  Definition PostI (b0 : bool) (t : trace) (c : option (mem * mem)) (sf : tst) : Prop :=
    (at_exit p sf -> (exists r, f_out f (rf sf) = Some r /\ lin spec (t ++ close c) r) /\ ie (rf sf) = b0) /\ pending spec t.
  Definition QuietI (b0 : bool) (r : A) (t : trace) (c : option (mem * mem)) (sf : tst) : Prop :=
    Forall silent t /\ (at_exit p sf -> Forall silent (t ++ close c) /\ f_out f (rf sf) = Some r /\ ie (rf sf) = b0).
  Lemma GI_mono n cur s (Phi Psi : trace -> option (mem * mem) -> tst -> Prop) :
    (forall t c sf, Phi t c sf -> Psi t c sf) -> GI n cur s Phi -> GI n cur s Psi.
  Proof. intros H G1 os Hl Hw. specialize (G1 os Hl Hw). destruct (run_irq e p ie os cur s) as [[[t c] sf]|]; auto. Qed.
  Lemma GI_step n cur s i (Phi : trace -> option (mem * mem) -> tst -> Prop) : nth_error p (pc s) = Some i -> Phi [] cur s ->
    (forall k o, n = S k -> wf_mem (o_mem o) ->
       let m := match cur with Some (_, c) => c | None => o_mem o end in
       let b := match cur with Some (b, _) => b | None => m end in
       match exec e p i (mkor m (o_ok o) (o_junk o)) s with
       | Some (s', m') => if ie (rf s') then GI k None s' (fun t c sf => Phi ((b, m') :: t) c sf) else GI k (Some (b, m')) s' Phi
       | None => False end) ->
    GI n cur s Phi.
  Proof.
    intros Hi H0 H os Hl Hw. destruct os as [|o os]; cbn [length] in Hl; [exact H0|].
    inversion Hw as [|? ? Ho Hw']; subst. cbn [run_irq]. fold p. rewrite Hi. specialize (H (length os) o eq_refl Ho). cbv zeta in H.
    destruct (exec e p i _ s) as [[s' m']|]; [|exact H]. destruct (ie (rf s')).
    - specialize (H os eq_refl Hw'). destruct (run_irq e p ie os None s') as [[[t c] sf]|]; auto.
    - exact (H os eq_refl Hw').
  Qed.
  Lemma not_exit i s : nth_error p (pc s) = Some i -> ~ at_exit p s.
  Proof. intros H E. unfold at_exit in E. assert (nth_error p (pc s) <> None) as N by (rewrite H; discriminate). apply nth_error_Some in N. lia. Qed.
  Lemma Post_nil b0 i c s : nth_error p (pc s) = Some i -> PostI b0 [] c s.
  Proof. intros H. split; [intros E; exfalso; eapply not_exit; eauto|]. left. constructor. Qed.
  Lemma Quiet_nil b0 r i c s : nth_error p (pc s) = Some i -> QuietI b0 r [] c s.
  Proof. intros H. split; [constructor|intros E; exfalso; eapply not_exit; eauto]. Qed.
  Lemma emit_silent n s b0 b m : meq b m -> GI n None s (PostI b0) -> GI n None s (fun t c sf => PostI b0 ((b, m) :: t) c sf).
  Proof.
    intros Hs. apply GI_mono. intros t c sf [H1 H2]. split.
    - intros E. destruct (H1 E) as [(r & Hr & Hl) Hi]. split; [|exact Hi]. exists r. split; auto.
      destruct Hl as (t1 & x & y & t2 & Eq & S1 & S2 & S3). exists ((b, m) :: t1), x, y, t2. cbn [app]. rewrite Eq. auto.
    - destruct H2 as [H2|(r & t1 & x & y & t2 & Eq & S1 & S2 & S3)]; [left; constructor; auto|].
      right. exists r, ((b, m) :: t1), x, y, t2. cbn [app]. rewrite Eq. auto.
  Qed.
  Lemma emit_lin r n s b0 b m : spec b m r -> GI n None s (QuietI b0 r) -> GI n None s (fun t c sf => PostI b0 ((b, m) :: t) c sf).
  Proof.
    intros Hs. apply GI_mono. intros t c sf [H1 H2]. split.
    - intros E. destruct (H2 E) as (Hf & Hr & Hi). split; [|exact Hi]. exists r. split; [exact Hr|].
      exists [], b, m, (t ++ close c). repeat split; auto.
    - right. exists r, [], b, m, t. repeat split; auto.
  Qed.
  Lemma emit_quiet n s b0 r b m : meq b m -> GI n None s (QuietI b0 r) -> GI n None s (fun t c sf => QuietI b0 r ((b, m) :: t) c sf).
  Proof.
    intros Hs. apply GI_mono. intros t c sf [H1 H2]. split; [constructor; auto|]. intros E. destruct (H2 E) as (Hf & Hr & Hi).
    repeat split; auto. cbn [app]. constructor; auto.
  Qed.
  Lemma exit_run n cur s (Phi : trace -> option (mem * mem) -> tst -> Prop) : nth_error p (pc s) = None -> Phi [] cur s -> GI n cur s Phi.
  Proof. intros Hi H os Hl Hw. destruct os as [|o os]; cbn [run_irq]; [exact H|]. fold p. rewrite Hi. exact H. Qed.
  Lemma exit_quiet n s b0 r : nth_error p (pc s) = None -> f_out f (rf s) = Some r -> ie (rf s) = b0 -> GI n None s (QuietI b0 r).
  Proof. intros Hi Hr He. apply exit_run; auto. split; [constructor|]. intros _. repeat split; auto. constructor. Qed.
  Lemma exit_open n s b0 r b m : nth_error p (pc s) = None -> f_out f (rf s) = Some r -> ie (rf s) = b0 -> spec b m r ->
    GI n (Some (b, m)) s (PostI b0).
  Proof.
    intros Hi Hr He Hs. apply exit_run; auto. split; [|left; constructor]. intros _. split; [|exact He].
    exists r. split; auto. exists [], b, m, []. repeat split; auto.
  Qed.
  Lemma irq_intro : (forall n s0 m0, wf_mem m0 -> pc s0 = O -> f_in f (rf s0) ->
      GI n (if ie (rf s0) then None else Some (m0, m0)) s0 (PostI (ie (rf s0)))) -> atomic_irq e ie f spec.
  Proof. intros H os s0 m0 Hw Hm Hp Hin. specialize (H (length os) s0 m0 Hm Hp Hin os eq_refl Hw). exact H. Qed.
End GI.

Lemma ldiff_128 x : Z.testbit (Z.ldiff x 128) 7 = false.
Proof. rewrite Z.ldiff_spec. apply andb_false_r. Qed.
Lemma ldiff_8 x : Z.testbit (Z.ldiff x 8) 3 = false.
Proof. rewrite Z.ldiff_spec. apply andb_false_r. Qed.
Lemma flags_keep fm j x b : 0 <= b -> Z.testbit fm b = false -> Z.testbit (set_flags fm j x) b = Z.testbit x b.
Proof. intros Hb H. unfold set_flags. rewrite Z.lor_spec, Z.ldiff_spec, Z.land_spec, H. cbn. rewrite andb_true_r, andb_false_r. apply orb_false_r. Qed.
Lemma fk30 j x : Z.testbit (set_flags 30 j x) 7 = Z.testbit x 7. Proof. apply flags_keep; [lia|reflexivity]. Qed.
Lemma fk63 j x : Z.testbit (set_flags 63 j x) 7 = Z.testbit x 7. Proof. apply flags_keep; [lia|reflexivity]. Qed.
Lemma fk263 j x : Z.testbit (set_flags 263 j x) 3 = Z.testbit x 3. Proof. apply flags_keep; [lia|reflexivity]. Qed.

Ltac irq_start f r m0 Hm0 :=
  apply irq_intro; let k := fresh "k0" in intros ? [k f r] m0 Hm0 Hpc Hin; cbn in Hpc; subst k; cbn [f_in rf] in Hin; cbn [rf].
Lemma av_ie_eq g : av_ie g = Z.testbit (g SREG) 7. Proof. reflexivity. Qed.
Lemma ms_ie_eq g : ms_ie g = Z.testbit (g SREG) 3. Proof. reflexivity. Qed.
Ltac ie_split f HB := match goal with |- context [if ?ie f then None else _] => destruct (ie f) eqn:HB; unfold ie in HB end.
(* one step; afterwards the goal is the emitted or the still-open continuation *)
Ltac ist HB := eapply GI_step; [cbnx; reflexivity | first [eapply Post_nil; cbnx; reflexivity | eapply Quiet_nil; cbnx; reflexivity] |
   let k := fresh "k" in let o := fresh "o" in let Hk := fresh "Hk" in let Ho := fresh "Ho" in intros k o Hk Ho; cbv zeta; cbnx;
   try match goal with |- if ?ie ?g then _ else _ => first [rewrite (av_ie_eq g) | rewrite (ms_ie_eq g)] end;
   cbnx; repeat first [rewrite fk30 | rewrite fk63 | rewrite fk263]; rewrite ?ldiff_128, ?ldiff_8; rewrite ?HB ].

(* ---- operand contract and bounded length: independent of memory and of the interrupt schedule ---- *)
Section GJ.
  Context {A : Type} (e : endian) (ie : regs -> bool) (f : fn A).
  Let p := f_prog f.
  Definition GJ (n : nat) (s : tst) (Psi : tst -> Prop) : Prop :=
    forall os cur, length os = n -> match run_irq e p ie os cur s with None => False | Some (_, _, sf) => Psi sf end.
  Lemma GJ_step n s i (Psi : tst -> Prop) : nth_error p (pc s) = Some i -> (n = O -> Psi s) ->
    (forall k m ok j, n = S k -> match exec e p i (mkor m ok j) s with Some (s', _) => GJ k s' Psi | None => False end) -> GJ n s Psi.
  Proof.
    intros Hi H0 H os cur Hl. destruct os as [|o os]; cbn [run_irq]; [apply H0; symmetry; exact Hl|]. fold p. rewrite Hi.
    specialize (H (length os) (match cur with Some (_, c) => c | None => o_mem o end) (o_ok o) (o_junk o) (eq_sym Hl)).
    destruct (exec e p i _ s) as [[s' m']|]; [|exact H]. destruct (ie (rf s')).
    - specialize (H os None eq_refl). destruct (run_irq e p ie os None s') as [[[t c] sf]|]; auto.
    - apply H; reflexivity.
  Qed.
  Lemma GJ_exit n s (Psi : tst -> Prop) : nth_error p (pc s) = None -> Psi s -> GJ n s Psi.
  Proof. intros Hi H os cur Hl. destruct os as [|o os]; cbn [run_irq]; [exact H|]. fold p. rewrite Hi. exact H. Qed.
  Definition PsiJ (L n : nat) (g : regs) (sf : tst) : Prop :=
    (at_exit p sf -> forall r, ~ In r (f_clob f) -> rf sf r = g r) /\ ((L <= n)%nat -> at_exit p sf).
  Lemma PsiJ_nil L n g i s : nth_error p (pc s) = Some i -> (n < L)%nat -> PsiJ L n g s.
  Proof. intros H Hn. split; [intros E; exfalso; eapply (not_exit f); eauto|]. intros X. exfalso. lia. Qed.
  Lemma PsiJ_exit L n g s : at_exit p s -> (forall r, ~ In r (f_clob f) -> rf s r = g r) -> PsiJ L n g s.
  Proof. intros H Hc. split; auto. Qed.
  Lemma GJ_contract L : (forall n s, pc s = O -> f_in f (rf s) -> GJ n s (PsiJ L n (rf s))) -> contract_irq e ie f /\ bounded_irq e ie f L.
  Proof.
    intros H. split.
    - intros os s0 c0 t cur sf Hp Hin R. specialize (H (length os) s0 Hp Hin os c0 eq_refl). fold p in R. rewrite R in H. destruct H as [H _]. exact H.
    - intros os s0 c0 Hp Hin HL. specialize (H (length os) s0 Hp Hin os c0 eq_refl). fold p.
      destruct (run_irq e p ie os c0 s0) as [[[t c] sf]|]; [|contradiction]. destruct H as [_ H]. exists t, c, sf. split; auto.
  Qed.
End GJ.
Ltac jst := eapply GJ_step; [cbnx; reflexivity | intros ->; eapply PsiJ_nil; [cbnx; reflexivity|repeat constructor] |
   let k := fresh "k" in intros k ? ? ? ->; cbnx].
Ltac jstart := apply GJ_contract; let k := fresh "k0" in intros ? [k f r] Hpc Hin; cbn in Hpc; subst k; cbn [f_in rf] in Hin; cbn [rf].
Ltac jend := apply GJ_exit; [cbnx; reflexivity|]; apply PsiJ_exit; [cbnx; reflexivity|];
   let r := fresh "r" in let H := fresh "H" in intros r H; cbn [f_clob In] in H; cbn [rf]; destruct r; try reflexivity; exfalso; apply H; tauto.
