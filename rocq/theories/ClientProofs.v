From Verif Require Import Steps.
From Verif Require Import Client ApiProofs All_atomic All_progress.

Definition twf (t : trace) : Prop := Forall (fun st => wf_mem (fst st)) t.
Lemma run_twf e p : forall os s t sf, wf_oracles os -> run e p os s = Ran t sf -> twf t.
Proof.
  induction os as [|o os IH]; intros s t sf W R; cbn [run] in R; [injection R as <- <-; constructor|].
  inversion W; subst. destruct (nth_error p (pc s)); [|injection R as <- <-; constructor].
  destruct exec as [[s1 m1]|]; [|discriminate]. destruct (run e p os s1) eqn:R1; [|discriminate]. injection R as <- <-. constructor; [assumption|]. exact (IH _ _ _ H2 R1).
Qed.
Definition curwf (c : option (mem * mem)) : Prop := match c with Some (b, m) => wf_mem b /\ wf_mem m | None => True end.
Lemma run_irq_twf e p ie : forall os c s t c' sf, wf_oracles os -> curwf c -> run_irq e p ie os c s = Some (t, c', sf) -> twf t /\ curwf c'.
Proof.
  induction os as [|o os IH]; intros c s t c' sf W Wc R; cbn [run_irq] in R; [injection R as <- <- <-; split; [constructor|auto]|].
  inversion W; subst. destruct (nth_error p (pc s)); [|injection R as <- <- <-; split; [constructor|auto]].
  set (m := match c with Some (_, x) => x | None => o_mem o end) in *. set (b := match c with Some (x, _) => x | None => m end) in *.
  assert (wf_mem m /\ wf_mem b) as [Wm Wb] by (subst m b; destruct c as [[x y]|]; cbn in *; tauto). clearbody m b.
  destruct exec as [[s1 m1]|] eqn:X; [|discriminate].
  assert (wf_mem m1) as W1 by (eapply exec_wf; [|exact X]; exact Wm).
  destruct (ie (rf s1)).
  - destruct (run_irq e p ie os None s1) as [[[t1 c1] s2]|] eqn:R1; [|discriminate]. injection R as <- <- <-.
    apply IH in R1; cbn; auto. destruct R1. split; [constructor; auto|auto].
  - apply IH in R; cbn; auto.
Qed.
Lemma call_twf T c t s : call_run T c t s -> twf t.
Proof.
  assert (forall A (f : fn A) t t' sf, ran T f t t' sf -> twf t /\ twf t') as R.
  { intros A f t0 t' sf R. inversion R; subst.
    - split; eapply run_twf; eauto.
    - eapply run_irq_twf in H4; [|assumption|destruct (ie (rf s0)); cbn; auto]. { destruct H4 as [P Q]. split; auto. apply Forall_app. split; auto. destruct cur as [[x y]|]; cbn in *; [apply Forall_cons; [apply Q|]|]; apply Forall_nil. } }
  intros H. inversion H; subst; try (apply Forall_nil); match goal with X : ran _ _ _ _ _ |- _ => apply R in X; apply X end.
Qed.
Lemma held_val e a n v t : 0 <= n -> twf t -> held e a n v t -> val n v.
Proof. intros Hn W (st & I & <-). unfold twf in W. rewrite Forall_forall in W. apply rd_range; auto. Qed.
Lemma held_app e a n v t t' : held e a n v t \/ held e a n v t' -> held e a n v (t ++ t').
Proof. intros [(st & I & H)|(st & I & H)]; exists st; rewrite in_app_iff; auto. Qed.
Lemma lin_held {A} (sp : mem -> mem -> A -> Prop) e a n v t r : (forall m m', sp m m' r -> rd e m a n = v) -> lin sp t r -> held e a n v t.
Proof. intros H (t1 & m & m' & t2 & -> & _ & _ & S). exists (m, m'). rewrite in_app_iff. cbn. eauto. Qed.
Lemma lin_silent {A} (sp : mem -> mem -> A -> Prop) t r : (forall m m', sp m m' r -> meq m m') -> lin sp t r -> Forall silent t.
Proof. intros H (t1 & m & m' & t2 & -> & S1 & S2 & S). apply Forall_app. split; auto. constructor; auto. exact (H _ _ S). Qed.
Lemma lin_app {A} (sp : mem -> mem -> A -> Prop) t0 t r : Forall silent t0 -> lin sp t r -> lin sp (t0 ++ t) r.
Proof. intros S0 (t1 & m & m' & t2 & -> & S1 & S2 & S). exists (t0 ++ t1), m, m', t2. rewrite <- app_assoc. repeat split; auto. apply Forall_app. auto. Qed.
Lemma lin_impl {A B} (sp : mem -> mem -> A -> Prop) (sp' : mem -> mem -> B -> Prop) t r r' : (forall m m', sp m m' r -> sp' m m' r') -> lin sp t r -> lin sp' t r'.
Proof. intros H (t1 & m & m' & t2 & -> & S1 & S2 & S). exists t1, m, m', t2. auto. Qed.

(* the effect of a successful fetch_update: the cell held [v] and became the closure's answer for [v] *)
Definition fu_spec (e : endian) (a n : Z) (next : Z) : mem -> mem -> Z -> Prop :=
  fun m m' v => v = rd e m a n /\ meq m' (wr e m a n next).
Definition fu_post (T : arch) (n a : Z) (t : trace) (l : list (Z * option Z)) (s : fu_status) : Prop :=
  (forall x y, In (x, y) l -> held (t_e T) a n x t) /\
  match s with
  | FOk v => exists l' next, l = l' ++ [(v, Some next)] /\ lin (fu_spec (t_e T) a n next) t v
  | FErr v => exists l', l = l' ++ [(v, None)] /\ Forall silent t
  | FRunning => Forall silent t \/ exists l' v next, l = l' ++ [(v, Some next)] /\ lin (fu_spec (t_e T) a n next) t v
  | FPanicked => False
  | FUB => False
  end.
(* [l] = the closure's arguments and answers in order: the trace splits so that each argument is a value the cell held in its own piece, later than the pieces of the earlier ones *)
Fixpoint fresh (e : endian) (a n : Z) (l : list (Z * option Z)) (t : trace) : Prop :=
  match l with [] => True | (x, _) :: l' => exists t1 t2, t = t1 ++ t2 /\ held e a n x t1 /\ fresh e a n l' t2 end.
Section FUP.
  Context (T : arch) (n : Z) (so fo : ordering) (a : Z) {C : Type} (clo : C -> Z -> C * option Z).
  Context (W : t_wf T) (Hc : cell T n a) (Hn : 0 < n) (Hm : cas_seq_byte T = false)
          (Hv : forall st x st' y, clo st x = (st', Some y) -> val n y).
  Lemma casw_call prev next t s : val n prev -> val n next -> call_run T (OCasWeak n so fo a prev next) t s ->
    match s with
    | Panicked => op_pre T (OCasWeak n so fo a prev next) = Panic
    | Running => pending (casw_spec (t_e T) a n prev next) t
    | Returned (RCas v true) => v = prev /\ lin (fu_spec (t_e T) a n next) t prev
    | Returned (RCas v false) => held (t_e T) a n v t /\ Forall silent t
    | _ => False end.
  Proof.
    intros V1 V2 R. apply api_call in R; auto; [|cbn; auto].
    destruct s as [| |r|]; [tauto| | |tauto].
    - destruct R as [_ [P|[r P]]]; [left; auto|right]. destruct r as [v| |v ok]; try (destruct P as (? & ? & ? & ? & _ & _ & _ & []); fail).
      exists (v, ok). eapply lin_impl; [|exact P]. auto.
    - destruct R as [_ L]. destruct r as [v| |v ok]; try (destruct L as (? & ? & ? & ? & _ & _ & _ & []); fail). destruct ok.
      + assert (v = prev) as -> by (destruct L as (? & ? & ? & ? & _ & _ & _ & [E [E' _]]); cbn in *; congruence).
        split; auto. eapply lin_impl; [|exact L]. intros m m' [E [E' M]]. cbn in *. split; auto.
      + split; [eapply lin_held; [|exact L]|eapply lin_silent; [|exact L]]; intros m m' [E M]; cbn in *; auto. now apply meq_sym.
  Qed.
  Lemma loop_post st prev t l s : fu_loop T n so fo a clo st prev t l s -> forall t0, Forall silent t0 -> twf t0 -> held (t_e T) a n prev t0 ->
    match fo with Release | AcqRel => False | _ => True end -> t_gate T n = Ret tt -> fu_post T n a (t0 ++ t) l s.
  Proof.
    intros L. induction L as [st st' prev E|st st' prev next t v E R|st st' prev next t v t' l r E R L IH|st st' prev next t E R|st st' prev next t E R|st st' prev next t E R];
    intros t0 S0 W0 H0 Fo Ga; (assert (val n prev) as Vp by (eapply held_val; [|exact W0|exact H0]; lia));
    try (pose proof (casw_call prev next _ _ Vp (Hv _ _ _ _ E) R) as P; cbv beta iota in P).
    - split; [intros x y [[= <- <-]|[]]; apply held_app; auto|]. exists []. split; auto. rewrite app_nil_r. auto.
    - destruct P as [-> P]. split; [intros x y [[= <- <-]|[]]; apply held_app; auto|]. exists [], next. split; auto. apply lin_app; auto.
    - destruct P as [Hh Sl]. rewrite app_assoc. destruct (IH (t0 ++ t)) as [I1 I2]; auto.
      { apply Forall_app; auto. } { apply Forall_app; split; auto. eapply call_twf; eauto. } { apply held_app; auto. }
      split.
      + intros x y [[= <- <-]|I]; [do 2 (apply held_app; left); auto|apply (I1 x y I)].
      + destruct r.
        * exact I2.
        * destruct I2 as [I2|(l' & v' & nx & -> & I2)]; [left; auto|right]. exists ((prev, Some next) :: l'), v', nx. auto.
        * destruct I2 as (l' & nx & -> & I2). exists ((prev, Some next) :: l'), nx. auto.
        * destruct I2 as (l' & -> & I2). exists ((prev, Some next) :: l'). auto.
        * exact I2.
    - split; [intros x y [[= <- <-]|[]]; apply held_app; auto|]. destruct P as [P|[[v ok] P]].
      + left. apply Forall_app; auto.
      + destruct ok.
        * right. exists [], prev, next. split; auto. apply lin_app; auto. eapply lin_impl; [|exact P]. intros m m' [E1 [E2 M]]. cbn in *. split; auto.
        * left. apply Forall_app; split; auto. eapply lin_silent; [|exact P]. intros m m' [_ M]. now apply meq_sym.
    - exfalso. unfold op_pre in P. destruct so, fo; try contradiction; cbn in P; congruence.
    - contradiction.
  Qed.
  (* each answer of the closure is used for one attempt, and the next argument is a value the cell held during that attempt *)
  Lemma loop_fresh st prev t l s : fu_loop T n so fo a clo st prev t l s -> val n prev -> forall t0, held (t_e T) a n prev t0 -> fresh (t_e T) a n l (t0 ++ t).
  Proof.
    intros L. induction L as [st st' prev E|st st' prev next t v E R|st st' prev next t v t' l r E R L IH|st st' prev next t E R|st st' prev next t E R|st st' prev next t E R];
    intros Vp t0 H0; cbn [fresh]; try (eexists t0, _; split; [reflexivity|]; split; [assumption|exact Logic.I]).
    pose proof (casw_call prev next _ _ Vp (Hv _ _ _ _ E) R) as P; cbv beta iota in P. destruct P as [Hh _].
    exists t0, (t ++ t'). split; [reflexivity|]. split; [assumption|]. apply IH; [|assumption]. eapply held_val; [|eapply call_twf; exact R|exact Hh]; lia.
  Qed.
  Theorem fetch_update_fresh st t l s : fetch_update T n so fo a clo st t l s -> fresh (t_e T) a n l t.
  Proof.
    intros F. inversion F as [t0 prev t' l' r R L|t0 R|t0 R|t0 R]; subst; try exact Logic.I. apply api_call in R as P; auto. destruct P as [_ P].
    assert (held (t_e T) a n prev t0) as Hh by (eapply lin_held; [|exact P]; intros m m' [E _]; auto).
    eapply loop_fresh; eauto. eapply held_val; [|eapply call_twf; exact R|exact Hh]; lia.
  Qed.
  Theorem fetch_update_correct st t l s : fetch_update T n so fo a clo st t l s ->
    match fo, t_gate T n with
    | Release, _ | AcqRel, _ | _, Panic => s = FPanicked /\ t = [] /\ l = []
    | _, _ => fu_post T n a t l s
    end.
  Proof.
    intros F. inversion F as [t0 prev t' l' r R L|t0 R|t0 R|t0 R]; subst; apply api_call in R as P; auto; cbn in P.
    - destruct P as [Ck P]. unfold op_pre in Ck. cbn in Ck. assert (match fo with Release | AcqRel => False | _ => True end) as Fo by (destruct fo; try discriminate; auto).
      assert (t_gate T n = Ret tt) as Ga by (destruct fo; try discriminate; auto).
      assert (fu_post T n a (t0 ++ t') l s) as Q; [|rewrite Ga; destruct fo; auto; contradiction].
      eapply loop_post; eauto. { eapply lin_silent; [|exact P]. intros m m' [_ M]; auto. } { eapply call_twf; eauto. }
      eapply lin_held; [|exact P]. intros m m' [E _]; auto.
    - destruct P as [Ck P]. assert (Forall silent t) as S. { destruct P as [P|[r P]]; auto. eapply lin_silent; [|exact P]. intros m m'; destruct r; cbn; try tauto. intros [_ M]; auto. }
      unfold op_pre in Ck. cbn in Ck. assert (t_gate T n = Ret tt) as Ga by (destruct fo; try discriminate; auto). rewrite Ga.
      assert (fu_post T n a t [] FRunning) as Q; [|destruct fo; auto; discriminate]. split; [intros x y []|left; auto].
    - destruct P as [Ck ->]. unfold op_pre in Ck. cbn in Ck. destruct fo; cbn in Ck; auto; rewrite Ck; auto.
    - contradiction.
  Qed.
End FUP.

(* ---- the helper ---- *)
Section HP.
  Context (T : arch) (n a : Z) {V : Type} (dec : Z -> V) (eqv : V -> V -> bool) (new_raw : Z).
  Context (W : t_wf T) (Hc : cell T n a) (Hn : 0 < n) (Hm : cas_seq_byte T = false) (Hg : t_gate T n = Ret tt) (Vn : val n new_raw)
          (Er : forall x, eqv x x = true) (Et : forall x y z, eqv x y = true -> eqv y z = true -> eqv x z = true) (Es : forall x y, eqv x y = eqv y x).
  (* the cell's contents were semantically equal to [current] and became [new_raw] *)
  Definition h_spec (current : V) : mem -> mem -> unit -> Prop := fun m m' _ => eqv (dec (rd (t_e T) m a n)) current = true /\ meq m' (wr (t_e T) m a n new_raw).
  Definition h_post (current : V) (t : trace) (s : h_status V) : Prop :=
    match s with
    | HOk v => eqv v current = true /\ lin (h_spec current) t tt
    | HErr v => eqv v current = false /\ Forall silent t /\ exists raw, dec raw = v /\ held (t_e T) a n raw t
    | HRunning => pending (h_spec current) t
    | HPanicked | HUB => False
    end.
  Theorem helper_correct current raw t l s : helper T n a dec eqv new_raw current raw t l s -> dec raw = current -> val n raw -> h_post current t s.
  Proof.
    intros H. induction H as [current raw t v R|current raw t v R E|current raw t v t' l s R E L IH|current raw t R|current raw t R|current raw t R]; intros Hd Hv;
    pose proof (casw_call T n AcqRel Acquire a W Hc Hm raw new_raw _ _ Hv Vn R) as P; cbv beta iota in P.
    - destruct P as [-> P]. split; [apply Er|]. eapply lin_impl; [|exact P]. intros m m' [E M]. split; [rewrite <- E, Hd; apply Er|exact M].
    - destruct P as [Hh S]. cbn. eauto.
    - destruct P as [Hh S]. assert (val n v) as Vv by (eapply held_val; [|eapply call_twf; exact R|exact Hh]; lia).
      specialize (IH eq_refl Vv). destruct s as [w|w| | |]; cbn [h_post] in *; auto.
      + destruct IH as [E1 IH]. split; [eapply Et; eauto|]. apply lin_app; auto. eapply lin_impl; [|exact IH]. intros m m' [E2 M]. split; [eapply Et; eauto|auto].
      + destruct IH as (E1 & S' & rw & D & H'). repeat split; [|apply Forall_app; auto|exists rw; split; auto; apply held_app; auto].
        destruct (eqv w current) eqn:X; auto. rewrite <- E1. symmetry. eapply Et; [exact X|]. now rewrite Es.
      + destruct IH as [S'|[[] IH]]; [left; apply Forall_app; auto|right]. exists tt. apply lin_app; auto. eapply lin_impl; [|exact IH]. intros m m' [E2 M]. split; [eapply Et; eauto|auto].
    - cbn. destruct P as [P|[[v ok] P]]; [left; auto|]. destruct ok.
      + right. exists tt. eapply lin_impl; [|exact P]. intros m m' [E [E' M]]. cbn in *. split; [rewrite E', Hd; apply Er|auto].
      + left. eapply lin_silent; [|exact P]. intros m m' [_ M]. now apply meq_sym.
    - unfold op_pre in P; cbn in P; congruence.
    - contradiction.
  Qed.
  (* when nobody interferes (every attempt finds the same bytes [x]) and no attempt fails although the bytes are the expected ones,
     there are at most two attempts *)
  Theorem helper_two_attempts current raw t l s x : helper T n a dec eqv new_raw current raw t l s ->
    (forall r v ok, In (r, v, ok) l -> v = x) -> (forall r v, In (r, v, false) l -> r <> v) -> (length l <= 2)%nat.
  Proof.
    intros H Hx Hs. inversion H as [| |c0 r0 t0 v t' l' s' R E L| | |]; subst; cbn [length]; try lia.
    assert (v = x) as -> by (eapply Hx; left; reflexivity).
    inversion L as [| | ? ? ? v2 ? ? ? R2 E2 L2| | |]; subst; cbn [length]; try lia.
    exfalso. apply (Hs x v2); [right; left; reflexivity|]. symmetry. eapply Hx. right. left. reflexivity.
  Qed.
End HP.
