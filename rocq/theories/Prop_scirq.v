(* C26 on the single-core targets (AVR, MSP430): the results of every run of several contexts are those of an interleaving of their calls. *)
From Verif Require Import Interleave Prop_sc Solo.
From Verif Require Import ConcIrq ConcIrqProofs Prop_irq.

(* the result call [k] returns with *)
Fixpoint result_of (k : nat) (V : list vis) : option rval :=
  match V with [] => None | VRet k' r :: V => if Nat.eqb k k' then Some r else result_of k V | _ :: V => result_of k V end.
(* the calls of context [t] that return, and their results *)
Fixpoint returned (t : nat) (V : list vis) : list (op * rval) :=
  match V with
  | [] => []
  | VInv t' k c :: V => if Nat.eqb t t' then match result_of k V with Some r => (c, r) :: returned t V | None => returned t V end else returned t V
  | _ :: V => returned t V
  end.
Definition results (h : list event) (t : nat) : list (op * rval) := returned t (flat_map view_e h).

Section IL.
Context (e : endian).
Definition vinv (V : list vis) : Prop := forall V1 t k c V2, V = V1 ++ VInv t k c :: V2 -> forall k' c', In (VInv t k' c') V1 -> exists r, In (VRet k' r) V1.
Definition vall (V : list vis) : Prop := forall t k c, In (VInv t k c) V -> exists r, In (VRet k r) V.
Definition shape (A : list aev) : Prop := forall k, let l := filter (about k) A in
  l = [] \/ exists t c, l = [AInv t k c] \/ exists r, l = [AInv t k c; ALin k c r] \/ l = [AInv t k c; ALin k c r; ARet k r].
Lemma about_inv A t k c : In (AInv t k c) A -> In (AInv t k c) (filter (about k) A).
Proof. intros H. apply filter_In. split; auto. cbn. apply Nat.eqb_refl. Qed.
Lemma view_inv A t k c : In (VInv t k c) (flat_map view_a A) <-> In (AInv t k c) A.
Proof.
  rewrite in_flat_map. split.
  - intros (x & I & J). destruct x; cbn in J; destruct J as [J|[]] || destruct J; try discriminate J. injection J as -> -> ->. exact I.
  - intros I. exists (AInv t k c). split; [exact I|now left].
Qed.
Lemma view_ret A k r : In (VRet k r) (flat_map view_a A) <-> In (ARet k r) A.
Proof.
  rewrite in_flat_map. split.
  - intros (x & I & J). destruct x; cbn in J; destruct J as [J|[]] || destruct J; try discriminate J. injection J as -> ->. exact I.
  - intros I. exists (ARet k r). split; [exact I|now left].
Qed.
Lemma about_ret A k r : In (ARet k r) A -> In (ARet k r) (filter (about k) A).
Proof. intros H. apply filter_In. split; auto. cbn. apply Nat.eqb_refl. Qed.
(* if only one answer is possible *)
Lemma result_one k r V : In (VRet k r) V -> (forall r', In (VRet k r') V -> r' = r) -> result_of k V = Some r.
Proof.
  induction V as [|x V IH]; intros I U; [destruct I|]. destruct x as [t' k' c'|k' r'|m m']; cbn [result_of].
  - destruct I as [I|I]; [discriminate I|]. apply IH; auto. intros r' J. apply U. now right.
  - destruct (Nat.eqb_spec k k') as [->|Ne]; [f_equal; apply U; now left|]. destruct I as [I|I]; [congruence|]. apply IH; auto. intros r2 J. apply U. now right.
  - destruct I as [I|I]; [discriminate I|]. apply IH; auto. intros r' J. apply U. now right.
Qed.
Definition owed (O : nat -> option (nat * op)) (A : list aev) (t : nat) : list (op * rval) :=
  match O t with
  | Some (k, c) => match result_of k (flat_map view_a A) with Some r => (c, r) :: returned t (flat_map view_a A) | None => returned t (flat_map view_a A) end
  | None => returned t (flat_map view_a A) end.
Lemma il_of A2 : forall A1 O m mf, vinv (flat_map view_a (A1 ++ A2)) -> vall (flat_map view_a (A1 ++ A2)) -> shape (A1 ++ A2) ->
  (forall m m', ~ In (APlain m m') A2) -> (forall t k c, O t = Some (k, c) <-> filter (about k) A1 = [AInv t k c]) ->
  legal e m A2 mf -> exists m1, meq m1 mf /\ interleaved (op_spec e) (owed O A2) m m1.
Proof.
  induction A2 as [|x A2 IH]; intros A1 O m mf Vi Va Sh Np HO Lg.
  - inversion Lg; subst. exists m. split; [auto|]. apply il_done. intros t. unfold owed. cbn. destruct (O t) as [[k c]|]; reflexivity.
  - assert (A1 ++ x :: A2 = (A1 ++ [x]) ++ A2) as EA by now rewrite <- app_assoc. rewrite EA in Vi, Va, Sh.
    assert (forall m m', ~ In (APlain m m') A2) as Np' by (intros m1 m2 J; apply (Np m1 m2); now right).
    assert (forall k, filter (about k) (A1 ++ [x]) = filter (about k) A1 ++ filter (about k) [x]) as Fk by (intros; apply filter_app).
    inversion Lg as [|? t k c ? ? Lg'|? k r ? ? Lg'|? k c r m1 m2 ? ? E1 Sp Lg'|]; subst.
    + (* called *)
      assert (O t = None) as Ot.
      { destruct (O t) as [[k' c']|] eqn:Ot; auto. exfalso. apply HO in Ot. assert (In (AInv t k' c') A1) as I.
        { assert (In (AInv t k' c') (filter (about k') A1)) as I by (rewrite Ot; now left). now apply filter_In in I. }
        destruct (Vi (flat_map view_a A1) t k c (flat_map view_a A2)) with (k' := k') (c' := c') as [r R].
        - rewrite <- app_assoc, flat_map_app. reflexivity.
        - now apply view_inv.
        - apply view_ret in R. apply about_ret in R. rewrite Ot in R. destruct R as [R|[]]. discriminate R. }
      assert (filter (about k) A1 = []) as Fn.
      { specialize (Sh k). cbv zeta in Sh. rewrite filter_app, Fk in Sh. cbn [filter about] in Sh. rewrite Nat.eqb_refl in Sh.
        destruct (filter (about k) A1) as [|y l]; auto. exfalso. cbn [app] in Sh. destruct Sh as [Sh|(t' & c' & [Sh|(r & [Sh|Sh])])]; try discriminate Sh; injection Sh as -> Sh;
          destruct l as [|? [|? [|? ?]]]; discriminate Sh. }
      destruct (IH (A1 ++ [AInv t k c]) (fun t' => if Nat.eqb t' t then Some (k, c) else O t') m mf Vi Va Sh Np') as (m1 & M1 & I1); [|exact Lg'|].
      * intros t' k' c'. rewrite Fk. cbn [filter about]. destruct (Nat.eqb_spec t' t) as [->|Ne].
        -- split.
           ++ intros H. injection H as <- <-. rewrite Fn, Nat.eqb_refl. reflexivity.
           ++ destruct (Nat.eqb_spec k' k) as [->|Nk]; [rewrite Fn; cbn; congruence|]. rewrite app_nil_r. intros H. apply HO in H. congruence.
        -- destruct (Nat.eqb_spec k' k) as [->|Nk]; [|rewrite app_nil_r; apply HO]. rewrite Fn. cbn. split; [intros H; apply HO in H; congruence|]. intros H. congruence.
      * exists m1. split; auto. refine (il_ext _ _ _ _ _ _ I1). intros t'. unfold owed. cbn [flat_map view_a app returned result_of].
        destruct (Nat.eqb_spec t' t) as [->|Ne]; [now rewrite Ot|]. destruct (O t') as [[k' c']|]; reflexivity.
    + (* returned *)
      assert (forall t c, O t <> Some (k, c)) as Ok.
      { intros t c H. apply HO in H. specialize (Sh k). cbv zeta in Sh. rewrite filter_app, Fk in Sh. cbn [filter about] in Sh. rewrite Nat.eqb_refl, H in Sh.
        destruct Sh as [Sh|(t' & c' & [Sh|(r' & [Sh|Sh])])]; discriminate Sh. }
      destruct (IH (A1 ++ [ARet k r]) O m mf Vi Va Sh Np') as (m1 & M1 & I1); [|exact Lg'|].
      * intros t' k' c'. rewrite Fk. cbn [filter about]. destruct (Nat.eqb_spec k' k) as [->|Nk]; [|rewrite app_nil_r; apply HO]. split; [intros H; destruct (Ok _ _ H)|].
        intros H. apply (f_equal (@rev aev)) in H. rewrite rev_app_distr in H. discriminate H.
      * exists m1. split; auto. refine (il_ext _ _ _ _ _ _ I1). intros t'. unfold owed. cbn [flat_map view_a app returned result_of].
        destruct (O t') as [[k' c']|] eqn:Ot; [|reflexivity]. destruct (Nat.eqb_spec k' k) as [->|Nk]; [destruct (Ok _ _ Ot)|reflexivity].
    + (* takes effect *)
      assert (exists t, filter (about k) A1 = [AInv t k c] /\ filter (about k) A2 = [ARet k r]) as (t & F1 & F2).
      { pose proof (Sh k) as Sk. cbv zeta in Sk. rewrite filter_app, Fk in Sk. cbn [filter about] in Sk. rewrite Nat.eqb_refl in Sk.
        destruct Sk as [Sk|(t' & c' & Sk)]; [apply app_eq_nil in Sk; destruct Sk as [Sk _]; apply app_eq_nil in Sk; destruct Sk as [_ Sk]; discriminate Sk|].
        assert (exists r', filter (about k) A1 ++ ALin k c r :: filter (about k) A2 = [AInv t' k c'; ALin k c' r'; ARet k r']) as (r' & E).
        { rewrite <- app_assoc in Sk. cbn [app] in Sk. destruct Sk as [Sk|(r' & [Sk|Sk])]; [| |exists r'; exact Sk].
          - destruct (filter (about k) A1) as [|? [|? ?]]; discriminate Sk.
          - exfalso. destruct (Va t' k c') as [r2 R].
            + apply view_inv. assert (In (AInv t' k c') (filter (about k) ((A1 ++ [ALin k c r]) ++ A2))) as I.
              { rewrite filter_app, Fk. cbn [filter about]. rewrite Nat.eqb_refl, <- app_assoc. cbn [app]. rewrite Sk. now left. } now apply filter_In in I.
            + apply view_ret in R. apply about_ret in R. rewrite filter_app, Fk in R. cbn [filter about] in R. rewrite Nat.eqb_refl, <- app_assoc in R. cbn [app] in R. rewrite Sk in R.
              destruct R as [R|[R|[]]]; discriminate R. }
        exists t'. destruct (filter (about k) A1) as [|y [|z [|w l]]]; cbn [app] in E; try discriminate E.
        - injection E as -> -> -> ->. auto.
        - injection E as _ _ _ E. destruct l; discriminate E. }
      assert (O t = Some (k, c)) as Ot by now apply HO.
      assert (result_of k (flat_map view_a A2) = Some r) as Rk.
      { apply result_one; [apply view_ret; assert (In (ARet k r) (filter (about k) A2)) as I by (rewrite F2; now left); now apply filter_In in I|].
        intros r' R. apply view_ret, about_ret in R. rewrite F2 in R. destruct R as [R|[]]. congruence. }
      destruct (IH (A1 ++ [ALin k c r]) (fun t' => if Nat.eqb t' t then None else O t') m2 mf Vi Va Sh Np') as (m3 & M3 & I3); [|exact Lg'|].
      * intros t' k' c'. rewrite Fk. cbn [filter about]. destruct (Nat.eqb_spec k' k) as [->|Nk].
        -- rewrite F1. split; [|intros H; discriminate H]. destruct (Nat.eqb_spec t' t) as [->|Ne]; [discriminate|]. intros H. apply HO in H. rewrite F1 in H. congruence.
        -- rewrite app_nil_r. destruct (Nat.eqb_spec t' t) as [->|Ne]; [|apply HO]. split; [discriminate|]. intros H. apply HO in H. congruence.
      * exists m3. split; auto. apply (il_step _ _ (owed (fun t' => if Nat.eqb t' t then None else O t') A2) t c r (returned t (flat_map view_a A2)) m m2 m3).
        -- unfold owed. cbn [flat_map view_a app]. now rewrite Ot, Rk.
        -- unfold owed. now rewrite Nat.eqb_refl.
        -- intros t' Ne. unfold owed. cbn [flat_map view_a app]. apply Nat.eqb_neq in Ne. now rewrite Ne.
        -- exact (op_spec_meq e c m1 m2 m m2 r (meq_sym _ _ E1) (meq_refl _) Sp).
        -- exact I3.
    + exfalso. apply (Np m1 m2). now left.
Qed.
End IL.

(* in a history of the system: a context calls only after its previous call returned *)
Lemma run_calls T ie : forall h S0 S, isteps T ie S0 h S -> forall V0,
  (forall t k c, In (VInv t k c) V0 -> (exists r, In (VRet k r) V0) \/ exists x, s_thr S0 t = Some x /\ k_id x = k) -> vinv V0 ->
  vinv (V0 ++ flat_map view_e h) /\ (forall t k c, In (VInv t k c) (V0 ++ flat_map view_e h) -> (exists r, In (VRet k r) (V0 ++ flat_map view_e h)) \/ exists x, s_thr S t = Some x /\ k_id x = k).
Proof.
  induction 1 as [S0|S0 ev S1 h S2 H _ IH]; intros V0 H0 Vi; [cbn; rewrite app_nil_r; auto|]. cbn [flat_map]. rewrite app_assoc. apply IH.
  - intros t k c I. inversion H; subst; cbn [view_e s_thr setthr] in *; unfold setthr; rewrite ?app_nil_r in *.
    + apply in_app_or in I. destruct I as [I|[I|[]]].
      * destruct (H0 t k c I) as [[r R]|(x & X & E)]; [left; exists r; apply in_or_app; now left|]. right. exists x. split; auto. destruct (Nat.eqb_spec t t0) as [->|Ne]; [congruence|auto].
      * injection I as <- <- <-. right. exists (mkfly (s_next S0) c0 f s0). rewrite Nat.eqb_refl. auto.
    + destruct (H0 t k c I) as [R|(x & X & E)]; auto. right. destruct (Nat.eqb_spec t t0) as [->|Ne]; [|exists x; auto]. eexists. split; [reflexivity|]. cbn. match goal with Y : s_thr S0 t0 = Some (mkfly _ _ _ _) |- _ => rewrite X in Y; injection Y as ->; exact E end.
    + apply in_app_or in I. destruct I as [I|[I|[]]]; [|discriminate I]. destruct (H0 t k c I) as [[r' R]|(x & X & E)]; [left; exists r'; apply in_or_app; now left|].
      destruct (Nat.eqb_spec t t0) as [->|Ne]; [|right; exists x; auto]. left. exists r. apply in_or_app. right. left. f_equal. match goal with Y : s_thr S0 t0 = Some (mkfly _ _ _ _) |- _ => rewrite X in Y; injection Y as ->; exact E end.
    + apply in_app_or in I. destruct I as [I|[I|[]]]; [|discriminate I]. destruct (H0 t k c I) as [[r' R]|X]; [left; exists r'; apply in_or_app; now left|right; exact X].
  - assert (forall t k c, view_e ev = [VInv t k c] -> s_thr S0 t = None) as Nn by (intros t k c E; inversion H; subst; cbn in E; try discriminate E; injection E; intros; subst; assumption).
    intros V1 t k c V2 E k' c' I. destruct (view_e ev) as [|v [|]] eqn:Ev; [rewrite app_nil_r in E; exact (Vi V1 t k c V2 E k' c' I)| |destruct ev; discriminate Ev].
    destruct (exists_last (l := VInv t k c :: V2)) as (V3 & v' & E3); [discriminate|]. rewrite E3, app_assoc in E. apply app_inj_tail in E. destruct E as [E <-].
    destruct V3 as [|v3 V3]; cbn [app] in E3.
    + injection E3 as <- _. rewrite app_nil_r in E. subst V1. specialize (Nn t k c eq_refl). destruct (H0 t k' c' I) as [R|(x & X & _)]; [exact R|congruence].
    + injection E3 as <- _. exact (Vi V1 t k c V3 E k' c' I).
Qed.
(* All calls of all contexts have returned and memory is written by calls only: the results are those of an interleaving, which leaves the
   memory of the end.  (Whatever the orderings: there is one core.) *)
Theorem C26_irq_interleaving T ie m0 h S : t_ie T = Some ie -> t_wf T -> wf_mem m0 -> isteps T ie (init m0) h S ->
  (forall t, s_thr S t = None) -> (forall m m', ~ In (EPlain m m') h) -> exists mf, interleaved (op_spec (t_e T)) (results h) m0 mf /\ meq mf (s_mem S).
Proof.
  intros HT W Wm St Nn Np. destruct (C07_irq_linearizable T ie m0 h S HT W Wm St) as (mv & (A & V & Lg & Sh) & Q).
  assert (mv = s_mem S) as -> by (apply Q; intros t x Hx; rewrite Nn in Hx; discriminate Hx).
  destruct (run_calls T ie h _ _ St []) as [Vi Va]; [intros ? ? ? []|intros V1 t k c V2 E; destruct V1; discriminate E|]. cbn [app] in Vi, Va.
  destruct (il_of (t_e T) A [] (fun _ => None) m0 (s_mem S)) as (m1 & M & I); auto.
  - cbn [app]. rewrite V. exact Vi.
  - cbn [app]. rewrite V. intros t k c H. destruct (Va t k c H) as [R|(x & X & _)]; [exact R|]. rewrite Nn in X. discriminate X.
  - intros m m' H. assert (In (VPlain m m') (flat_map view_e h)) as I by (rewrite <- V; apply in_flat_map; exists (APlain m m'); split; [exact H|now left]).
    apply in_flat_map in I. destruct I as (x & I & J). destruct x; cbn in J; destruct J as [J|[]] || destruct J; try discriminate J. injection J as -> ->. exact (Np _ _ I).
  - intros t k c. cbn. split; discriminate.
  - exists m1. split; [|exact M]. refine (il_ext _ _ _ _ _ _ I). intros t. unfold owed, results. now rewrite V.
Qed.
