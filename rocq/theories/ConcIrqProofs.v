From Verif Require Import Steps.
From Verif Require Import ConcIrq ConcProofs All_atomic All_progress ApiProofs.

Lemma run_irq_snoc p ie o : forall os c0 s0 t cur s i s' m', run_irq LE p ie os c0 s0 = Some (t, cur, s) -> nth_error p (pc s) = Some i ->
  exec LE p i (mkor (match cur with Some (_, c) => c | None => o_mem o end) (o_ok o) (o_junk o)) s = Some (s', m') ->
  run_irq LE p ie (os ++ [o]) c0 s0 =
    Some (if ie (rf s') then (t ++ [(match cur with Some (b, _) => b | None => o_mem o end, m')], None, s')
          else (t, Some (match cur with Some (b, _) => b | None => o_mem o end, m'), s')).
Proof.
  induction os as [|o1 os IH]; intros c0 s0 t cur s i s' m' R N X; cbn [run_irq app] in *.
  - injection R as <- <- <-. rewrite N. cbv zeta. destruct c0 as [[b c]|]; rewrite X; destruct (ie (rf s')); reflexivity.
  - destruct (nth_error p (pc s0)) as [i0|] eqn:N0; [|injection R as <- <- <-; congruence]. cbv zeta in *.
    destruct (exec LE p i0 _ s0) as [[s1 m1]|]; [|discriminate]. destruct (ie (rf s1)).
    + destruct (run_irq LE p ie os None s1) as [[[t1 c1] sf]|] eqn:R1; [|discriminate]. injection R as <- <- <-.
      rewrite (IH None s1 t1 c1 sf i s' m' R1 N X). destruct (ie (rf s')); reflexivity.
    + exact (IH _ s1 t cur s i s' m' R N X).
Qed.
Lemma irq_sound T ie c : t_ie T = Some ie -> op_broken T c = false.
Proof. intros HT. destruct T; try discriminate HT; destruct c; cbn [op_broken cas_seq_byte]; unfold cas_upper_bits; rewrite ?Bool.andb_false_r; reflexivity. Qed.
Definition runsI (T : arch) (ie : regs -> bool) (c : op) (f : fn rval) (tr : trace) (cur : option (mem * mem)) (s : tst) : Prop :=
  op_args T c /\ op_pre T c = Ret tt /\ op_impl T c = Impl f /\
  exists os s0 m0, wf_oracles os /\ wf_mem m0 /\ pc s0 = O /\ f_in f (rf s0) /\
    run_irq LE (f_prog f) ie os (if ie (rf s0) then None else Some (m0, m0)) s0 = Some (tr, cur, s).
Definition section (ie : regs -> bool) (b m : mem) (s : tst) : option (mem * mem) := if ie (rf s) then None else Some (b, m).
Definition finishedI (T : arch) (ie : regs -> bool) (k : nat) (E : list event) : Prop :=
  exists t c f s tr cur r, proj k E = EInv t k c :: map (EStep k) (tr ++ close cur) ++ [ERet k r] /\ runsI T ie c f tr cur s /\ at_exit (f_prog f) s /\ f_out f (rf s) = Some r.
(* [h]: the real history; [E]: the same history with every masked section of a call as one step; [b]: memory when the open masked
   section (if any) began *)
Record invI (T : arch) (ie : regs -> bool) (m0 : mem) (h E : list event) (b : mem) (S : sys) : Prop := {
  j_view : flat_map view_e E = flat_map view_e h;
  j_wf : wf_mem (s_mem S);
  j_wfb : wf_mem b;
  j_chain : chain m0 E b;
  j_base : unmasked ie S -> b = s_mem S;
  j_one : forall t t' x y, s_thr S t = Some x -> s_thr S t' = Some y -> ie (rf (k_st x)) = false -> ie (rf (k_st y)) = false -> t = t';
  j_new : forall k, (s_next S <= k)%nat -> proj k E = [];
  j_fly : forall t k c f s, s_thr S t = Some (mkfly k c f s) -> (k < s_next S)%nat /\
            exists tr, proj k E = EInv t k c :: map (EStep k) tr /\ runsI T ie c f tr (section ie b (s_mem S) s) s;
  j_uniq : forall t t' x y, s_thr S t = Some x -> s_thr S t' = Some y -> k_id x = k_id y -> t = t';
  j_old : forall k, (k < s_next S)%nat -> (exists t c f s, s_thr S t = Some (mkfly k c f s)) \/ finishedI T ie k E }.
Lemma finishedI_other T ie k E e : eabout k e = false -> finishedI T ie k E -> finishedI T ie k (E ++ [e]).
Proof. intros H F. unfold finishedI in *. rewrite proj_snoc, H, app_nil_r. exact F. Qed.
Lemma view_app a b : flat_map view_e (a ++ b) = flat_map view_e a ++ flat_map view_e b.
Proof. apply flat_map_app. Qed.
(* a context that may run: either nobody is inside a masked section, or it is the one *)
Lemma may_base T ie m0 h E b S t : invI T ie m0 h E b S -> may_run ie S t ->
  (match s_thr S t with Some x => ie (rf (k_st x)) = true | None => True end) -> b = s_mem S.
Proof.
  intros I M H. apply (j_base _ _ _ _ _ _ _ I). intros t' x Hx. destruct (Nat.eq_dec t' t) as [->|N]; [rewrite Hx in H; exact H|eauto].
Qed.
Lemma other_section T ie m0 h E b S t t' k c f s : invI T ie m0 h E b S -> may_run ie S t -> t' <> t -> s_thr S t' = Some (mkfly k c f s) ->
  forall b' m', section ie b (s_mem S) s = section ie b' m' s.
Proof. intros I M N H b' m'. unfold section. pose proof (M t' _ N H) as X. cbn [k_st] in X. rewrite X. reflexivity. Qed.
Lemma invI_step T ie m0 h E b S e S' : t_ie T = Some ie -> invI T ie m0 h E b S -> istep T ie S e S' -> exists E' b', invI T ie m0 (h ++ [e]) E' b' S'.
Proof.
  intros HT I H. assert (t_e T = LE) as HE by (destruct T; try discriminate HT; reflexivity).
  pose proof (may_base T ie m0 h E b S) as MB. pose proof (other_section T ie m0 h E b S) as OS.
  inversion H as [? t c f s0 Hr Ht Ha Hc Hi Hp Hin | ? t k c f s i ok j s' m' Hr Ht Hi HX | ? t k c f s r Hr Ht He Ho | ? t m' Hr Ht Hw]; subst.
  - (* a call *)
    assert (b = s_mem S) as -> by (apply (MB t); auto; rewrite Ht; exact Logic.I). destruct I as [JV JW JB JC JBa JO JN JF JU JD].
    exists (E ++ [EInv t (s_next S) c]), (s_mem S). constructor; cbn [s_mem s_thr s_next]; auto.
    + rewrite !view_app, JV. reflexivity.
    + eapply chain_snoc; [exact JC|]. reflexivity.
    + intros t1 t2 x y H1 H2 E1 E2. thr t1 t; thr t2 t; auto.
      * pose proof (Hr _ _ n H2). congruence.
      * pose proof (Hr _ _ n H1). congruence.
      * eapply JO; eauto.
    + intros k Hk. rewrite proj_snoc, JN by lia. cbn [eabout]. destruct (Nat.eqb_spec k (s_next S)); [lia|reflexivity].
    + intros t' k' c' f' s' H'. thr t' t.
      * injection H' as <- <- <- <-. split; [lia|]. exists []. rewrite proj_snoc, JN by lia. cbn [eabout map app]. rewrite Nat.eqb_refl. split; [reflexivity|].
        repeat (split; [assumption|]). exists [], s0, (s_mem S). split; [constructor|]. repeat (split; [assumption|]). reflexivity.
      * destruct (JF _ _ _ _ _ H') as [L (tr & P & R)]. split; [lia|]. exists tr. rewrite proj_snoc, P. cbn [eabout]. destruct (Nat.eqb_spec k' (s_next S)); [lia|]. rewrite app_nil_r. auto.
    + intros t1 t2 x y H1 H2 HEq. thr t1 t; thr t2 t; auto.
      * injection H1 as <-. cbn [k_id] in HEq. destruct y as [ky cy fy sy]. destruct (JF _ _ _ _ _ H2) as [L _]. cbn in HEq. lia.
      * injection H2 as <-. cbn [k_id] in HEq. destruct x as [ky cy fy sy]. destruct (JF _ _ _ _ _ H1) as [L _]. cbn in HEq. lia.
      * eapply JU; eauto.
    + intros k Hk. destruct (Nat.eq_dec k (s_next S)) as [->|].
      * left. exists t, c, f, s0. apply setthr_same.
      * destruct (JD k) as [(t' & c' & f' & s' & H')|F]; [lia| |].
        -- left. exists t', c', f', s'. rewrite setthr_other; auto. intros ->. congruence.
        -- right. apply finishedI_other; auto. cbn. apply Nat.eqb_neq. lia.
  - (* an instruction *)
    destruct I as [JV JW JB JC JBa JO JN JF JU JD]. destruct (JF _ _ _ _ _ Ht) as [Lk (tr & Pk & R)].
    assert (ie (rf s) = true -> b = s_mem S) as Eb by (intros X; apply (MB t); auto; [constructor; auto|rewrite Ht; exact X]).
    assert (wf_mem m') as Wm' by (eapply exec_wf; [|exact HX]; exact JW).
    assert (exists tr', runsI T ie c f (tr ++ tr') (section ie (if ie (rf s') then m' else b) m' s') s' /\
              tr' = if ie (rf s') then [(b, m')] else []) as (tr' & R' & Etr).
    { destruct R as (A1 & A3 & A4 & os & s0 & ms & W & Wm & P0 & I0 & R). rewrite HE in HX. unfold section in R.
      pose proof (run_irq_snoc (f_prog f) ie (mkor (s_mem S) ok j) os _ s0 tr _ s i s' m' R Hi) as SN. cbn [o_mem o_ok o_junk] in SN.
      exists (if ie (rf s') then [(b, m')] else []). split; [|reflexivity]. repeat (split; [assumption|]). exists (os ++ [mkor (s_mem S) ok j]), s0, ms.
      split; [apply Forall_app; split; [exact W|constructor; [exact JW|constructor]]|]. repeat (split; [assumption|]).
      unfold section. destruct (ie (rf s)) eqn:X.
      - rewrite (SN HX). rewrite <- (Eb eq_refl). destruct (ie (rf s')); [reflexivity|]. now rewrite app_nil_r.
      - rewrite (SN HX). destruct (ie (rf s')); [reflexivity|]. now rewrite app_nil_r. }
    exists (E ++ map (EStep k) tr'), (if ie (rf s') then m' else b).
    assert (forall k', proj k' (E ++ map (EStep k) tr') = proj k' E ++ if Nat.eqb k' k then map (EStep k) tr' else []) as PS.
    { intros k'. unfold proj. rewrite filter_app. f_equal. subst tr'. destruct (ie (rf s')); cbn [map filter eabout]; destruct (Nat.eqb k' k); reflexivity. }
    constructor; cbn [s_mem s_thr s_next]; auto.
    + rewrite !view_app, JV. f_equal. subst tr'. destruct (ie (rf s')); reflexivity.
    + destruct (ie (rf s')); auto.
    + subst tr'. destruct (ie (rf s')); cbn [map]; [|rewrite app_nil_r; exact JC]. eapply chain_snoc; [exact JC|]. cbn. auto.
    + intros U. assert (ie (rf s') = true) as X. { apply (U t (mkfly k c f s')). apply setthr_same. } now rewrite X.
    + intros t1 t2 x y H1 H2 E1 E2. thr t1 t; thr t2 t; auto.
      * pose proof (Hr _ _ n H2). congruence.
      * pose proof (Hr _ _ n H1). congruence.
      * eapply JO; eauto.
    + intros k' Hk. rewrite PS, JN by lia. destruct (Nat.eqb_spec k' k); [lia|reflexivity].
    + intros t' k' c' f' x H'. thr t' t.
      * injection H' as <- <- <- <-. split; [lia|]. exists (tr ++ tr'). rewrite PS, Pk, Nat.eqb_refl, map_app. split; [reflexivity|exact R'].
      * destruct (JF _ _ _ _ _ H') as [L (tr0 & P & R0)]. split; [lia|]. exists tr0. rewrite PS, P. destruct (Nat.eqb_spec k' k) as [->|].
        { pose proof (JU _ _ _ _ H' Ht eq_refl). contradiction. }
        rewrite app_nil_r. split; [reflexivity|]. rewrite (OS t t' k' c' f' x) with (b' := if ie (rf s') then m' else b) (m' := m') in R0; auto. constructor; auto.
    + intros t1 t2 x y H1 H2 HEq. thr t1 t; thr t2 t; auto.
      * injection H1 as <-. exact (JU _ _ _ _ Ht H2 HEq).
      * injection H2 as <-. exact (JU _ _ _ _ H1 Ht HEq).
      * eapply JU; eauto.
    + intros k' Hk. destruct (Nat.eq_dec k' k) as [->|].
      * left. exists t, c, f, s'. apply setthr_same.
      * destruct (JD k' Hk) as [(t' & c' & f' & x & H')|F].
        -- left. exists t', c', f', x. rewrite setthr_other; auto. intros ->. congruence.
        -- right. unfold finishedI in *. rewrite PS. destruct (Nat.eqb_spec k' k); [contradiction|]. rewrite app_nil_r. exact F.
  - (* a return *)
    destruct I as [JV JW JB JC JBa JO JN JF JU JD]. destruct (JF _ _ _ _ _ Ht) as [Lk (tr & Pk & R)].
    assert (ie (rf s) = true -> b = s_mem S) as Eb by (intros X; apply (MB t); auto; [constructor; auto|rewrite Ht; exact X]).
    set (cur := section ie b (s_mem S) s) in *.
    exists (E ++ map (EStep k) (close cur) ++ [ERet k r]), (s_mem S).
    assert (forall k', proj k' (E ++ map (EStep k) (close cur) ++ [ERet k r]) = proj k' E ++ if Nat.eqb k' k then map (EStep k) (close cur) ++ [ERet k r] else []) as PS.
    { intros k'. unfold proj. rewrite filter_app. f_equal. destruct cur as [st|]; cbn [close map app filter eabout]; destruct (Nat.eqb k' k); reflexivity. }
    constructor; cbn [s_mem s_thr s_next]; auto.
    + rewrite !view_app, JV. f_equal. destruct cur as [st|]; reflexivity.
    + subst cur. unfold section in *. destruct (ie (rf s)); cbn [close map app].
      * eapply chain_snoc; [exact JC|]. cbn. auto.
      * change [EStep k (b, s_mem S); ERet k r] with ([EStep k (b, s_mem S)] ++ [ERet k r]). rewrite app_assoc. eapply chain_snoc; [eapply chain_snoc; [exact JC|]|]; cbn; auto.
    + intros t1 t2 x y H1 H2 E1 E2. thr t1 t; [discriminate|]. thr t2 t; [discriminate|]. eapply JO; eauto.
    + intros k' Hk. rewrite PS, JN by lia. destruct (Nat.eqb_spec k' k); [lia|reflexivity].
    + intros t' k' c' f' x H'. thr t' t; [discriminate|].
      destruct (JF _ _ _ _ _ H') as [L (tr0 & P & R0)]. split; [lia|]. exists tr0. rewrite PS, P. destruct (Nat.eqb_spec k' k) as [->|].
      { pose proof (JU _ _ _ _ H' Ht eq_refl). contradiction. }
      rewrite app_nil_r. split; [reflexivity|]. rewrite (OS t t' k' c' f' x) with (b' := s_mem S) (m' := s_mem S) in R0; auto. constructor; auto.
    + intros t1 t2 x y H1 H2 HEq. thr t1 t; [discriminate|]. thr t2 t; [discriminate|]. eapply JU; eauto.
    + intros k' Hk. destruct (Nat.eq_dec k' k) as [->|].
      * right. exists t, c, f, s, tr, cur, r. rewrite PS, Pk, Nat.eqb_refl. rewrite map_app, <- app_assoc. auto.
      * destruct (JD k' Hk) as [(t' & c' & f' & x & H')|F].
        -- left. exists t', c', f', x. rewrite setthr_other; auto. intros ->. congruence.
        -- right. unfold finishedI in *. rewrite PS. destruct (Nat.eqb_spec k' k); [contradiction|]. rewrite app_nil_r. exact F.
  - (* any other write *)
    assert (b = s_mem S) as -> by (apply (MB t); auto; rewrite Ht; exact Logic.I). destruct I as [JV JW JB JC JBa JO JN JF JU JD].
    exists (E ++ [EPlain (s_mem S) m']), m'. constructor; cbn [s_mem s_thr s_next]; auto.
    + rewrite !view_app, JV. reflexivity.
    + eapply chain_snoc; [exact JC|]. cbn. auto.
    + intros k' Hk. rewrite proj_snoc, JN by lia. reflexivity.
    + intros t' k' c' f' x H'. destruct (JF _ _ _ _ _ H') as [L (tr & P & R)]. split; auto. exists tr. rewrite proj_snoc. cbn [eabout]. rewrite app_nil_r. split; [exact P|].
      rewrite (OS t t' k' c' f' x) with (b' := m') (m' := m') in R; auto; [constructor; auto|]. intros ->. congruence.
    + intros k' Hk. destruct (JD k' Hk); [left; auto|right; apply finishedI_other; auto].
Qed.
Lemma invI_steps T ie m0 : t_ie T = Some ie -> forall l S S', isteps T ie S l S' -> forall h E b, invI T ie m0 h E b S -> exists E' b', invI T ie m0 (h ++ l) E' b' S'.
Proof.
  intros HT l S S' H. induction H as [S|S e S1 l S2 H1 H2 IH]; intros h E b I; [rewrite app_nil_r; eauto|].
  replace (h ++ e :: l) with ((h ++ [e]) ++ l) by (rewrite <- app_assoc; reflexivity). destruct (invI_step _ _ _ _ _ _ _ _ _ HT I H1) as (E1 & b1 & I1). eapply IH; eauto.
Qed.
Lemma invI_init T ie m0 : wf_mem m0 -> invI T ie m0 [] [] m0 (init m0).
Proof. intros W. constructor; cbn; auto; try discriminate. intros k Hk. lia. Qed.
Lemma atomic_runI T ie c f tr cur s : t_ie T = Some ie -> t_wf T -> runsI T ie c f tr cur s ->
  pending (op_spec (t_e T) c) tr /\ (at_exit (f_prog f) s -> exists r, f_out f (rf s) = Some r /\ lin (op_spec (t_e T) c) (tr ++ close cur) r).
Proof.
  intros HT W (A1 & A3 & A4 & os & s0 & m0 & Ww & Wm & P0 & I0 & R).
  pose proof (op_atomic T c f W A1 (irq_sound T ie c HT) A4) as G. eapply atomic_ran; [exact G|]. eapply ran_irq; eauto.
Qed.
Lemma chooseI T ie m0 h E b S k : t_ie T = Some ie -> t_wf T -> invI T ie m0 h E b S -> exists mk, choice T E k mk.
Proof.
  intros HT W I. destruct (le_lt_dec (s_next S) k) as [Hk|Hk].
  - exists None. pose proof (j_new _ _ _ _ _ _ _ I k Hk) as P. split; [|left; auto]. intros i st. rewrite steps_of_proj, P. destruct i; discriminate.
  - destruct (j_old _ _ _ _ _ _ _ I k Hk) as [(t & c & f & s & Ht)|(t & c & f & s & tr & cur & r & P & R & Ex & Ho)].
    + destruct (j_fly _ _ _ _ _ _ _ I _ _ _ _ _ Ht) as [_ (tr & P & R)].
      assert (steps_of k E = tr) as Es by (rewrite steps_of_proj, P; apply steps_of_map).
      destruct (atomic_runI T ie c f tr _ s HT W R) as [[Sl|[r L]] _].
      * exists None. split; [|left; split; auto; right; exists t, c; rewrite Es; exact P]. rewrite Es. intros i st H. apply nth_error_In in H. cbn. rewrite Forall_forall in Sl. auto.
      * destruct (lin_ok _ _ _ _ L) as (j & Hj & Ok). exists (Some (j, c, r)). split; [rewrite Es; exact Ok|]. right. exists j, t, c, r. rewrite Es. auto.
    + assert (steps_of k E = tr ++ close cur) as Es.
      { rewrite steps_of_proj, P. change (EInv t k c :: map (EStep k) (tr ++ close cur) ++ [ERet k r]) with ([EInv t k c] ++ map (EStep k) (tr ++ close cur) ++ [ERet k r]).
        rewrite !steps_of_app, steps_of_map. cbn. now rewrite app_nil_r. }
      destruct (atomic_runI T ie c f tr cur s HT W R) as [_ G]. destruct (G Ex) as (r' & Hr & L). assert (r' = r) as -> by congruence.
      destruct (lin_ok _ _ _ _ L) as (j & Hj & Ok). exists (Some (j, c, r)). split; [rewrite Es; exact Ok|]. right. exists j, t, c, r. rewrite Es. auto.
Qed.
(* the second half of [system_linearizable], for any history with correct choices *)
Lemma annot_linearizable T m0 (E : list event) mf mk : chain m0 E mf -> (forall k, choice T E k (mk k)) -> linearizable (t_e T) m0 E mf.
Proof.
  intros C Hc. exists (annot mk (fun _ => 0%nat) E). split; [apply annot_view|split].
  - apply annot_legal; [exact C|]. intros k i st H. cbn [Nat.add]. now apply Hc.
  - intros k. cbv zeta. rewrite (annot_filter mk k E (fun _ => 0%nat) (fun _ => 0%nat) eq_refl).
    destruct (Hc k) as [_ [[M [P|(t & c & P)]]|(j & t & c & r & M & Hj & [P|P])]]; rewrite P.
    + left; reflexivity.
    + right. exists t, c. left. cbn [annot]. rewrite annot_steps_none by exact M. reflexivity.
    + right. exists t, c. right. exists r. left. cbn [annot]. rewrite <- (app_nil_r (map (EStep k) (steps_of k E))).
      destruct (annot_steps mk k [] j c r M (steps_of k E) (fun _ => 0%nat)) as [cnt' X]; [lia|]. rewrite X. reflexivity.
    + right. exists t, c. right. exists r. right. cbn [annot].
      destruct (annot_steps mk k [ERet k r] j c r M (steps_of k E) (fun _ => 0%nat)) as [cnt' X]; [lia|]. rewrite X. reflexivity.
Qed.
Lemma invI_linearizable T ie m0 h E b S : t_ie T = Some ie -> t_wf T -> invI T ie m0 h E b S -> linearizable (t_e T) m0 h b.
Proof.
  intros HT W I.
  destruct (choose_all (choice T E) None (s_next S) (fun k => chooseI T ie m0 h E b S k HT W I)) as [g Hg].
  assert (forall k, choice T E k (if k <? s_next S then g k else None)%nat) as Hc.
  { intros k. destruct (Nat.ltb_spec k (s_next S)); [auto|]. pose proof (j_new _ _ _ _ _ _ _ I k H) as P. split; [|left; auto].
    intros i st. rewrite steps_of_proj, P. destruct i; discriminate. }
  destruct (annot_linearizable T m0 E b _ (j_chain _ _ _ _ _ _ _ I) Hc) as (A & V & L & F). exists A. split; [|auto]. rewrite V. apply I.
Qed.
