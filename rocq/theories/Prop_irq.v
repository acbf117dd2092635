(* C07, C08, C13 on single-core targets (AVR, MSP430): the main program and its interrupt handlers. *)
From Verif Require Import Foot ConcIrq ConcIrqProofs ConcProofs All_atomic All_progress ApiProofs NoLost Layout Prop_bytes.

(* A call whose masked section is still open has not taken effect for anybody else: the history is linearizable with the memory [mv]
   that everybody else would see; when no masked section is open that memory is the memory. *)
Theorem C07_irq_linearizable T ie m0 h S : t_ie T = Some ie -> t_wf T -> wf_mem m0 -> isteps T ie (init m0) h S ->
  exists mv, linearizable (t_e T) m0 h mv /\ (unmasked ie S -> mv = s_mem S).
Proof.
  intros HT W Wm St. destruct (invI_steps T ie m0 HT h _ _ St [] [] m0 (invI_init T ie m0 Wm)) as (E & b & I). cbn [app] in I.
  exists b. split; [eapply invI_linearizable; eauto|apply I].
Qed.
Lemma run_irq_stuck_snoc p ie o : forall os c0 s0 t cur s i, run_irq LE p ie os c0 s0 = Some (t, cur, s) -> nth_error p (pc s) = Some i ->
  exec LE p i (mkor (match cur with Some (_, c) => c | None => o_mem o end) (o_ok o) (o_junk o)) s = None -> run_irq LE p ie (os ++ [o]) c0 s0 = None.
Proof.
  induction os as [|o1 os IH]; intros c0 s0 t cur s i R N X; cbn [run_irq app] in *.
  - injection R as <- <- <-. rewrite N. cbv zeta. destruct c0 as [[b c]|]; rewrite X; reflexivity.
  - destruct (nth_error p (pc s0)) as [i0|] eqn:N0; [|injection R as <- <- <-; congruence]. cbv zeta in *.
    destruct (exec LE p i0 _ s0) as [[s1 m1]|]; [|discriminate]. destruct (ie (rf s1)).
    + destruct (run_irq LE p ie os None s1) as [[[t1 c1] sf]|] eqn:R1; [|discriminate]. injection R as <- <- <-.
      now rewrite (IH None s1 t1 c1 sf i R1 N X).
    + exact (IH _ s1 t cur s i R N X).
Qed.
Lemma run_irq_pc p ie : forall os c0 s0 t cur s, (pc s0 <= length p)%nat -> run_irq LE p ie os c0 s0 = Some (t, cur, s) -> (pc s <= length p)%nat.
Proof.
  induction os as [|o os IH]; intros c0 s0 t cur s L R; cbn [run_irq] in R; [injection R as <- <- <-; exact L|].
  destruct (nth_error p (pc s0)) as [i0|] eqn:N0; [|injection R as <- <- <-; exact L]. cbv zeta in R.
  destruct (exec LE p i0 _ s0) as [[s1 m1]|] eqn:X; [|discriminate]. pose proof (exec_pc _ _ _ _ _ _ _ N0 X) as L1. destruct (ie (rf s1)).
  - destruct (run_irq LE p ie os None s1) as [[[t1 c1] sf]|] eqn:R1; [|discriminate]. injection R as <- <- <-. eapply IH; eauto.
  - eapply IH; eauto.
Qed.
(* a call that may run is never stuck, and returns at its end *)
Theorem C07_irq_progress T ie m0 h S t x : t_ie T = Some ie -> t_wf T -> wf_mem m0 -> isteps T ie (init m0) h S -> s_thr S t = Some x -> may_run ie S t ->
  exists e S', istep T ie S e S' /\ eabout (k_id x) e = true.
Proof.
  intros HT W Wm St Ht Hr. assert (t_e T = LE) as HE by (destruct T; try discriminate HT; reflexivity).
  destruct (invI_steps T ie m0 HT h _ _ St [] [] m0 (invI_init T ie m0 Wm)) as (E & b & I). cbn [app] in I. destruct x as [k c f s].
  destruct (j_fly _ _ _ _ _ _ _ I _ _ _ _ _ Ht) as [_ (tr & P & R)].
  destruct (nth_error (f_prog f) (pc s)) as [i|] eqn:N.
  - destruct (exec (t_e T) (f_prog f) i (mkor (s_mem S) true 0) s) as [[s' m']|] eqn:X.
    + eexists _, _. split; [eapply is_step; eauto|]. cbn. apply Nat.eqb_refl.
    + exfalso. destruct R as (A1 & A3 & A4 & os & s0 & mi & Ww & Wi & P0 & I0 & R). pose proof (op_atomic T c f W A1 (irq_sound T ie c HT) A4) as G.
      apply atomic_stuck in G. apply G. unfold stuck. rewrite HT. exists (os ++ [mkor (s_mem S) true 0]), s0, mi.
      split; [apply Forall_app; split; [exact Ww|constructor; [apply I|constructor]]|]. split; [exact Wi|]. split; [exact P0|]. split; [exact I0|].
      eapply run_irq_stuck_snoc; [exact R|exact N|]. rewrite HE in X. unfold section. destruct (ie (rf s)); exact X.
  - assert (at_exit (f_prog f) s) as Ex.
    { apply nth_error_None in N. destruct R as (A1 & A3 & A4 & os & s0 & mi & Ww & Wi & P0 & I0 & R). unfold at_exit.
      assert (pc s <= length (f_prog f))%nat; [|lia]. eapply run_irq_pc; [|exact R]. lia. }
    destruct (atomic_runI T ie c f tr _ s HT W R) as [_ G]. destruct (G Ex) as (r & Ho & _).
    eexists _, _. split; [eapply is_ret; eauto|]. cbn. apply Nat.eqb_refl.
Qed.
(* and while calls are in flight, one of them may run: masking never blocks the core *)
Lemma masked_dec T ie m0 h E b S : invI T ie m0 h E b S -> forall n, (n <= s_next S)%nat ->
  (exists t x, s_thr S t = Some x /\ ie (rf (k_st x)) = false) \/ (forall t x, s_thr S t = Some x -> (k_id x < n)%nat -> ie (rf (k_st x)) = true).
Proof.
  intros I. induction n as [|n IH]; intros Hn; [right; intros; lia|]. destruct IH as [Y|Nn]; [lia|left; exact Y|].
  destruct (j_old _ _ _ _ _ _ _ I n) as [(t & c & f & s & Ht)|(t & c & f & s & tr & cur & r & P & R & Ex & Ho)]; [lia| |].
  - destruct (ie (rf s)) eqn:Y; [|left; exists t, (mkfly n c f s); auto]. right. intros t' x Hx Hk. destruct (Nat.eq_dec (k_id x) n) as [D|D]; [|apply (Nn t' x); auto; lia].
    assert (t' = t) as -> by (eapply (j_uniq _ _ _ _ _ _ _ I); eauto). rewrite Ht in Hx. injection Hx as <-. exact Y.
  - right. intros t' x Hx Hk. destruct (Nat.eq_dec (k_id x) n) as [D|D]; [|apply (Nn t' x); auto; lia]. exfalso. destruct x as [k c' f' s']. cbn in D. subst k.
    destruct (j_fly _ _ _ _ _ _ _ I _ _ _ _ _ Hx) as [_ (tr' & P' & _)]. rewrite P in P'. injection P' as _ _ P'.
    assert (In (ERet n r) (map (EStep n) tr')) as Q by (rewrite <- P'; apply in_or_app; right; left; auto). apply in_map_iff in Q. destruct Q as (z & Q & _). discriminate Q.
Qed.
Theorem C07_irq_schedulable T ie m0 h S t x : t_ie T = Some ie -> wf_mem m0 -> isteps T ie (init m0) h S -> s_thr S t = Some x ->
  exists t' x', s_thr S t' = Some x' /\ may_run ie S t'.
Proof.
  intros HT Wm St Ht. destruct (invI_steps T ie m0 HT h _ _ St [] [] m0 (invI_init T ie m0 Wm)) as (E & b & I). cbn [app] in I.
  destruct (masked_dec _ _ _ _ _ _ _ I (s_next S) (le_n _)) as [(t1 & x1 & H1 & M1)|A].
  - exists t1, x1. split; auto. intros t2 x2 N H2. destruct (ie (rf (k_st x2))) eqn:Y; auto. exfalso. apply N. eapply (j_one _ _ _ _ _ _ _ I); eauto.
  - exists t, x. split; auto. intros t2 x2 _ H2. apply (A t2 x2 H2). destruct x2 as [k c f s]. apply (j_fly _ _ _ _ _ _ _ I _ _ _ _ _ H2).
Qed.
(* C13: no update is lost between the main program and the handlers *)
Theorem C13_irq_no_lost_updates T ie m0 h S a n : t_ie T = Some ie -> t_wf T -> wf_mem m0 -> 0 < n -> isteps T ie (init m0) h S -> unmasked ie S ->
  (forall t k c, In (EInv t k c) h -> rmw_only a n c) ->
  (forall m1 m2, In (EPlain m1 m2) h -> rd (t_e T) m1 a n = rd (t_e T) m2 a n) ->
  exists A, flat_map view_a A = flat_map view_e h /\ legal (t_e T) m0 A (s_mem S) /\
    (forall k, let l := filter (about k) A in
       l = [] \/ exists t c, l = [AInv t k c] \/ exists r, l = [AInv t k c; ALin k c r] \/ l = [AInv t k c; ALin k c r; ARet k r]) /\
    chained_updates (rd (t_e T) m0 a n) (updates a n A) (rd (t_e T) (s_mem S) a n).
Proof.
  intros HT W Wm Hn St U. destruct (C07_irq_linearizable T ie m0 h S HT W Wm St) as (mv & L & Q). rewrite (Q U) in L. now apply lin_no_lost.
Qed.
(* C08: and the bytes are transported *)
Theorem C08_irq_bytes_transported T ie m0 h S (val : nat -> args) am0 : t_ie T = Some ie -> t_wf T -> wf_mem m0 -> isteps T ie (init m0) h S ->
  (forall t k c, In (EInv t k c) h -> passes (t_e T) (val k) c) -> (forall a x, am0 a = Some x -> m0 a = x) ->
  exists (A : list aev) mv,
    flat_map view_a A = flat_map view_e h /\ legal (t_e T) m0 A mv /\ (unmasked ie S -> mv = s_mem S) /\
    (forall k, let l := filter (about k) A in
       l = [] \/ exists t c, l = [AInv t k c] \/ exists r, l = [AInv t k c; ALin k c r] \/ l = [AInv t k c; ALin k c r; ARet k r]) /\
    transports (t_e T) val am0 A.
Proof.
  intros HT W Wm St Hv Ha. destruct (C07_irq_linearizable T ie m0 h S HT W Wm St) as (mv & L & Q).
  destruct (lin_transports (t_e T) m0 h mv val am0) as (A & A1 & A2 & A3 & A4); auto.
  - clear - St. induction St as [|S0 e S1 l S2 H _ IH]; [intros ? ? ? []|]. intros t k c [->|I]; [|eauto].
    inversion H as [? ? ? f ? ? ? ? ? X| | |]; subst. pose proof (impl_pos _ _ _ X). lia.
  - clear - St. induction St as [|S0 e S1 l S2 H _ IH]; [intros ? ? []|]. intros m m' [->|I]; [inversion H; subst; auto|eauto].
  - exists A, mv. auto.
Qed.
