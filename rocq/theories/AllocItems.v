(* The accesses, fences and branches a call presents to the memory system (Items.v) do not depend on the registers the compiler picked. *)
From Verif Require Import Alloc Items.
Local Open Scope nat_scope.

Section SimT.
  Context {A : Type} (g : reg -> reg) (f : fn A) (P : permitted g f).
  Let safe := f_clob f ++ special.
  Let late := f_late f.
  Definition tz (t : tn) : regs := fun r => b2z (inr r (ta t)).
  Definition trel (d : bool) (t u : tn) : Prop := ll u = ll t /\ rel_ g f d (tz t) (tz u).
  Lemma rel_ext d s h s' h' : (forall r, s' r = s r) -> (forall r, h' r = h r) -> rel_ g f d s h -> rel_ g f d s' h'.
  Proof. intros E F [C D]. split; [intros Hd r; rewrite E, F; now apply C|intros r Hr; rewrite E, F; now apply D]. Qed.
  Lemma inr_del x r l : inr x (delr r l) = inr x l && negb (reg_beq x r).
  Proof.
    unfold inr, delr. induction l as [|y l IH]; [reflexivity|]. cbn [filter existsb]. destruct (reg_beq y r) eqn:E; cbn [negb existsb]; rewrite IH.
    - apply rbeq_iff in E. subst y. destruct (reg_beq x r) eqn:X; cbn [negb andb orb]; [now rewrite !andb_false_r|reflexivity].
    - destruct (reg_beq x y) eqn:X; [|reflexivity]. apply rbeq_iff in X. subst y. rewrite E. reflexivity.
  Qed.
  Lemma tz_prop M t r b x : m_dep M = true -> tz (prop_t M t r b) x = upd (tz t) r (b2z b) x.
  Proof.
    intros E. unfold prop_t, tz, upd. rewrite E. cbn [ta]. destruct (reg_beq x r) eqn:X.
    - apply rbeq_iff in X. subst. destruct b; [cbn; now rewrite rbeq_refl|]. rewrite inr_del, rbeq_refl. now rewrite andb_false_r.
    - destruct b; [unfold inr at 1; cbn [existsb]; rewrite X; cbn [orb]; fold (inr x (delr r (ta t)))|]; rewrite inr_del, X; cbn [negb]; now rewrite andb_true_r.
  Qed.
  Lemma rel_zero d : rel_ g f d (fun _ => 0%Z) (fun _ => 0%Z). Proof. split; reflexivity. Qed.
  Lemma may_nil d d' W : may_write f d d' W -> may_write f d d' [].
  Proof. intros [H|[H _]]; [now left|right; split; [exact H|intros r []]]. Qed.
  Lemma prop_sim M d d' t u r b : In r safe -> may_write f d d' [r] -> trel d t u -> trel d' (prop_t M t r b) (prop_t M u (g r) b).
  Proof.
    intros Hr MW [L R]. destruct (m_dep M) eqn:E.
    - split; [unfold prop_t; rewrite E; exact L|]. refine (rel_ext _ _ _ _ _ (fun x => tz_prop M t r b x E) (fun x => tz_prop M u (g r) b x E) _). exact (rel_upd g f P d d' _ _ _ _ Hr MW R).
    - unfold prop_t. rewrite E. split; [exact L|]. exact (rel_keep g f d d' _ _ (may_nil _ _ _ MW) R).
  Qed.
  (* registers written by a read *)
  Lemma read_sim M d d' l b : (forall r, In r l -> In r safe) -> may_write f d d' l -> trel d' (read_t M l b) (read_t M (map g l) b).
  Proof.
    intros Hs MW. split; [reflexivity|]. unfold read_t. destruct (m_dep M); [|apply rel_zero].
    assert (K : forall x, (forall r, In r l -> g x = g r -> x = r) -> tz (mktn l b) x = tz (mktn (map g l) b) (g x)).
    { intros x U. unfold tz. cbn [ta]. f_equal. unfold inr. destruct (existsb (reg_beq x) l) eqn:E.
      - apply existsb_exists in E. destruct E as (y & Hy & E). apply rbeq_iff in E. subst y. symmetry. apply existsb_exists. exists (g x). split; [now apply in_map|apply rbeq_refl].
      - destruct (existsb (reg_beq (g x)) (map g l)) eqn:E'; [|reflexivity]. apply existsb_exists in E'. destruct E' as (y & Hy & E'). apply rbeq_iff in E'. subst y. apply in_map_iff in Hy. destruct Hy as (r & Er & Hr).
        pose proof (U r Hr (eq_sym Er)) as Ex. subst r. exfalso. assert (existsb (reg_beq x) l = true) as C by (apply existsb_exists; exists x; split; [exact Hr|apply rbeq_refl]). congruence. }
    split.
    - intros -> x. apply K. intros r Hr E. destruct MW as [MW|[_ MW]]; [discriminate MW|]. exact (early_inj g f P r x (Hs r Hr) (MW r Hr) E).
    - intros x Hx. apply K. intros r Hr E. exact (safe_inj g f P r x (Hs r Hr) Hx E).
  Qed.
  Lemma inr_sim d t u l : trel d t u -> (d = true -> forall r, In r l -> In r safe) -> existsb (fun r => inr r (ta u)) (map g l) = existsb (fun r => inr r (ta t)) l.
  Proof.
    intros [_ R] H. induction l as [|r l IH]; [reflexivity|]. cbn [map existsb]. rewrite IH by (intros D x Hx; apply H; [exact D|now right]). f_equal.
    pose proof (rel_read1 g f d _ _ r R (fun D => H D r (or_introl eq_refl))) as X. unfold tz in X. destruct (inr (g r) (ta u)), (inr r (ta t)); cbn in X; congruence.
  Qed.

  Lemma isflag_alloc x : isflag (g x) = isflag x.
  Proof.
    assert (forall r, In r special -> isflag r = true -> isflag (g x) = isflag x \/ (x <> r /\ g x <> r)) as K.
    { intros r Hr Fr. destruct (p_special _ _ P r Hr) as [E1 E2]. destruct (reg_beq x r) eqn:E; [apply rbeq_iff in E; left; rewrite E, E1; reflexivity|]. right. split; intros X; [|apply E2 in X]; rewrite X, rbeq_refl in E; discriminate E. }
    destruct (K FZ) as [?|[]], (K FC) as [?|[]], (K CCR) as [?|[]]; auto; try (cbn; tauto). destruct (g x), x; cbn; congruence.
  Qed.
  Lemma existsb_map {B C} (h : B -> C) q l : existsb q (map h l) = existsb (fun b => q (h b)) l.
  Proof. induction l as [|y l IH]; [reflexivity|]. cbn. now rewrite IH. Qed.
  Lemma existsb_ext {B} (q q' : B -> bool) l : (forall b, q b = q' b) -> existsb q l = existsb q' l.
  Proof. intros E. induction l as [|y l IH]; [reflexivity|]. cbn. now rewrite IH, E. Qed.

  Variable dirty : nat -> bool.
  Variable e : endian.
  Variable M : mm.
  Let p := f_prog f.
  Lemma step_sim i o s h s' m' t u : instr_ok (f_clob f) (f_late f) dirty p (pc s) i -> exec e p i o s = Some (s', m') -> sim g f dirty s h -> trel (dirty (pc s)) t u ->
    emit M e (alloc_instr g i) o h u = emit M e i o s t /\ trel (dirty (pc s')) (t_step M i t) (t_step M (alloc_instr g i) u).
  Proof.
    intros (HW & HR & HS & HM) Ex (Epc & Ers & R) T. destruct s as [k s q], h as [k' h q']. cbn [pc rs rf] in *. subst k' q'.
    pose proof (sub_in _ _ HW) as W. fold safe in W, HM. rewrite forallb_forall in HS.
    assert (RD : dirty k = true -> forall r, In r (Alloc.reads i) -> In r safe). { intros D. rewrite D in HR. exact (sub_in _ _ HR). }
    assert (Nx : In (pc s') (succs p k i)).
    { destruct i; cbn [exec succs pc] in *; repeat match type of Ex with context [if ?b then _ else _] => destruct b eqn:? | context [let '(_, _) := ?x in _] => destruct x end; try (injection Ex as <- <-; cbn [pc]; now left).
      all: destruct (target p k l) as [y|] eqn:Ey; [|discriminate Ex]; injection Ex as <- <-; cbn [pc In]; auto. }
    assert (MW : may_write f (dirty k) (dirty (pc s')) (writes i)).
    { specialize (HS _ Nx). apply orb_prop in HS. destruct HS as [HS|HS]; [now left|]. apply andb_prop in HS. destruct HS as [H1 H2]. right. split; [now destruct (dirty k)|exact (disj_in _ _ H2)]. }
    assert (KP : forall v, trel (dirty (pc s')) (mktn (ta t) v) (mktn (ta u) v)). { intros v. split; [reflexivity|]. apply (rel_keep g f (dirty k)); [exact (may_nil _ _ _ MW)|exact (proj2 T)]. }
    assert (KP0 : trel (dirty (pc s')) t u). { split; [exact (proj1 T)|]. apply (rel_keep g f (dirty k)); [exact (may_nil _ _ _ MW)|exact (proj2 T)]. }
    pose proof (proj1 T) as TL.
    destruct i; cbn [emit t_step alloc_instr Alloc.reads writes pc rf rs] in *.
    - split; [reflexivity|exact KP0].
    - split; [reflexivity|exact KP0].
    - rewrite (rel_read1 g f _ _ _ rad R) by (intros D; apply (RD D); now left). split; [reflexivity|]. exact (read_sim M (dirty k) _ [_] false W MW).
    - rewrite (rel_read1 g f _ _ _ rad R) by (intros D; apply (RD D); right; now left). rewrite (rel_read1 g f _ _ _ rsrc R) by (intros D; apply (RD D); now left). split; [reflexivity|exact KP0].
    - rewrite (rel_read1 g f _ _ _ rad R) by (intros D; apply (RD D); now left). split; [reflexivity|]. exact (read_sim M (dirty k) _ [_] true W MW).
    - rewrite (rel_read1 g f _ _ _ rad R) by (intros D; apply (RD D); now left). split; [reflexivity|]. exact (read_sim M (dirty k) _ [r1; r2] true W MW).
    - rewrite (rel_read1 g f _ _ _ rad R) by (intros D; apply (RD D); right; now left). rewrite (rel_read1 g f _ _ _ rsrc R) by (intros D; apply (RD D); now left). rewrite TL.
      split; [reflexivity|]. apply (prop_sim M (dirty k)); [apply W; now left|exact MW|exact T].
    - rewrite (rel_read1 g f _ _ _ rad R) by (intros D; apply (RD D); right; right; now left). rewrite (rel_read1 g f _ _ _ r1 R) by (intros D; apply (RD D); now left).
      rewrite (rel_read1 g f _ _ _ r2 R) by (intros D; apply (RD D); right; now left). rewrite TL. split; [reflexivity|]. apply (prop_sim M (dirty k)); [apply W; now left|exact MW|exact T].
    - split; [reflexivity|]. destruct b; [rewrite <- ?TL; apply KP|exact KP0].
    - assert (Hra : h (g rad) = s rad). { apply (rel_read1 g f (dirty k) _ _ _ R). intros D. rewrite D in HM. exact (proj1 HM). }
      assert (Hw : forall ok v, wfun ok v (pull g h) = wfun ok v s).
      { intros ok v. destruct R as [C D0]. destruct (dirty k) eqn:D.
        - destruct HM as (_ & H & _). apply H. intros r Hr. unfold pull. symmetry. now apply D0.
        - destruct HM as ((_ & H & _) & _). apply H. intros r. unfold pull. symmetry. now apply C. }
      assert (Hr : Steps.reads (fun ok j v h => map (fun rv => (g (fst rv), snd rv)) (outs ok j v (pull g h))) = Steps.reads outs).
      { unfold Steps.reads. change (pull g (fun _ => 0%Z)) with (fun _ : reg => 0%Z). rewrite <- map_app, existsb_map. apply existsb_ext. intros [x v]. cbn [fst]. now rewrite isflag_alloc. }
      rewrite Hra, Hw, Hr. split; [reflexivity|]. destruct (Steps.reads outs); [|exact KP0]. change (pull g (fun _ => 0%Z)) with (fun _ : reg => 0%Z).
      destruct (m_dep M) eqn:Dp; [|split; [reflexivity|]; unfold read_t; rewrite Dp; apply rel_zero]. rewrite map_map. cbn [fst]. rewrite <- (map_map fst g).
      injection Ex as <- <-. cbn [pc] in *. 
      assert (Fs : Forall (fun rv => In (fst rv) safe) (outs true 0%Z 0%Z (fun _ => 0%Z))). { destruct (dirty k); [apply HM|apply (proj1 HM)]. }
      apply (read_sim M (dirty k)).
      + intros r Hi. apply in_map_iff in Hi. destruct Hi as (rv & <- & Hi). rewrite Forall_forall in Fs. now apply Fs.
      + destruct MW as [MW|[MW _]]; [now left|]. rewrite MW in HM. destruct (dirty (S k)) eqn:D'; [now left|]. right. split; [exact MW|].
        destruct HM as (_ & [H2|(_ & _ & _ & H2)]); [cbn [succs forallb] in H2; rewrite D' in H2; discriminate H2|].
        intros r Hi. apply in_map_iff in Hi. destruct Hi as (rv & <- & Hi). specialize (H2 true 0%Z 0%Z (fun _ => 0%Z)). rewrite Forall_forall in H2. specialize (H2 _ Hi). apply filter_In in H2. destruct H2 as [_ H2]. intros L. apply mem_in in L. unfold late in L. rewrite L in H2. discriminate H2.
    - split; [reflexivity|]. rewrite (inr_sim _ _ _ srcs T RD). apply (prop_sim M (dirty k)); [apply W; now left|exact MW|exact T].
    - split; [reflexivity|]. rewrite (inr_sim _ _ _ srcs T RD). destruct MW as [MW|[D MW]].
      + apply (prop_sim M true); [apply W; right; now left|now left|]. apply (prop_sim M (dirty k)); [apply W; now left|now left|exact T].
      + rewrite D in T. apply (prop_sim M false); [apply W; right; now left|right; split; [reflexivity|intros r [<-|[]]; apply MW; right; now left]|]. apply (prop_sim M false); [apply W; now left|right; split; [reflexivity|intros r [<-|[]]; apply MW; now left]|exact T].
    - rewrite (inr_sim _ _ _ srcs T RD). split; [reflexivity|exact KP0].
    - split; [reflexivity|exact KP0].
  Qed.

  Variable OKS : instrs_ok (f_clob f) (f_late f) dirty p 0 p.
  Lemma irun_sim os : forall s h t u, sim g f dirty s h -> trel (dirty (pc s)) t u ->
    match irun M e p os s t, irun M e (map (alloc_instr g) p) os h u with
    | Some (l, s'), Some (l', h') => l' = l /\ sim g f dirty s' h'
    | None, None => True
    | _, _ => False
    end.
  Proof.
    induction os as [|o os IH]; intros s h t u HS T; cbn [irun]; [now split|]. rewrite (proj1 HS), nth_error_map.
    destruct (nth_error p (pc s)) as [i|] eqn:E; cbn [option_map]; [|now split].
    pose proof (Alloc.nth_ok f dirty p 0 (pc s) i OKS E) as Io. pose proof (exec_sim g f P dirty e i o s h Io HS) as X. fold p in X.
    destruct (exec e p i o s) as [[s' m]|] eqn:Ex, (exec e (map (alloc_instr g) p) (alloc_instr g i) o h) as [[h' m']|]; try contradiction; [|exact Logic.I].
    destruct X as [-> HS']. destruct (step_sim i o s h s' m t u Io Ex HS T) as [Em T']. specialize (IH s' h' _ _ HS' T').
    destruct (irun M e p os s' (t_step M i t)) as [[l sf]|], (irun M e (map (alloc_instr g) p) os h' (t_step M (alloc_instr g i) u)) as [[l' hf]|]; try contradiction; [|exact Logic.I].
    destruct IH as [-> IH]. now rewrite Em.
  Qed.
End SimT.

Lemma irun_alloc {A} g (f : fn A) M e os h its hf : permitted g f -> alias_ok f -> pc h = O -> f_in (alloc g f) (rf h) -> irun M e (f_prog (alloc g f)) os h tn0 = Some (its, hf) ->
  exists s sf, pc s = O /\ f_in f (rf s) /\ irun M e (f_prog f) os s tn0 = Some (its, sf) /\ (at_exit (f_prog (alloc g f)) hf -> at_exit (f_prog f) sf) /\ f_out (alloc g f) (rf hf) = f_out f (rf sf).
Proof.
  intros P (_ & HO & dirty & D0 & OKS) Hp Hi R. pose proof (start_sim g f dirty h D0 Hp) as S0.
  assert (trel g f (dirty O) tn0 tn0) as T0. { split; [reflexivity|]. split; reflexivity. }
  pose proof (irun_sim g f P dirty e M OKS os _ h tn0 tn0 S0 T0) as X. cbn [alloc f_prog f_in f_out] in *. rewrite R in X.
  destruct (irun M e (f_prog f) os _ tn0) as [[l sf]|] eqn:E; [|contradiction]. destruct X as [-> X]. exists (mkst O (pull g (rf h)) (rs h)), sf. split; [reflexivity|]. split; [exact Hi|]. split; [exact E|]. split.
  - unfold at_exit. rewrite map_length. now rewrite (proj1 X).
  - exact (out_sim g f dirty sf hf HO X).
Qed.
