(* C35: the calls behave the same whatever registers the compiler picks for the asm! operands. *)
From Verif Require Import Api ApiProofs All_atomic All_misc All_progress Conc ConcProofs ConcIrq ConcIrqProofs Alloc AllocAll Prop_ops Prop_misc Prop_irq Examples.
From Verif Require Import Arch_riscv Arch_mips.

Lemma fmap_alias {A B} (h : A -> B) (f : fn A) : alias_ok f -> alias_ok (fmap h f).
Proof. intros (L & O & D). split; [exact L|split; [|exact D]]. intros s t E. cbn [fmap f_out]. now rewrite (O s t E). Qed.
Lemma op_alias T c f : op_impl T c = Impl f -> alias_ok f.
Proof.
  destruct c; cbn [op_impl]; intros H;
  match type of H with impl_map _ ?x = _ => destruct x eqn:E; cbn [impl_map] in H; try discriminate H; injection H as <- end; apply fmap_alias;
  [eapply load_alias|eapply store_alias|eapply swap_alias|eapply cas_alias|eapply casw_alias]; exact E.
Qed.
Lemma ie_sreg T ie : t_ie T = Some ie -> forall s t : regs, s SREG = t SREG -> ie s = ie t.
Proof. destruct T; cbn [t_ie]; intros H; try discriminate H; injection H as <-; intros s t E; unfold Arch_avr.av_ie, Arch_msp430.ms_ie; now rewrite E. Qed.

(* ---- one call ---- *)
(* a call compiled with the allocation [g] *)
Inductive alloc_run (T : arch) (g : reg -> reg) (c : op) : trace -> status -> Prop :=
| ac_panic : op_pre T c = Panic -> alloc_run T g c [] Panicked
| ac_unreachable : op_pre T c = Ret tt -> op_impl T c = Unreachable -> alloc_run T g c [] Panicked
| ac_running f t t' sf : op_pre T c = Ret tt -> op_impl T c = Impl f -> permitted g f -> ran T (alloc g f) t t' sf -> alloc_run T g c t Running
| ac_ret f t t' sf r : op_pre T c = Ret tt -> op_impl T c = Impl f -> permitted g f -> ran T (alloc g f) t t' sf -> at_exit (f_prog (alloc g f)) sf ->
    f_out (alloc g f) (rf sf) = Some r -> alloc_run T g c t' (Returned r)
| ac_ub f t t' sf : op_pre T c = Ret tt -> op_impl T c = Impl f -> permitted g f -> ran T (alloc g f) t t' sf -> at_exit (f_prog (alloc g f)) sf ->
    f_out (alloc g f) (rf sf) = None -> alloc_run T g c t' UB
| ac_stuck f : op_pre T c = Ret tt -> op_impl T c = Impl f -> permitted g f -> stuck T (alloc g f) -> alloc_run T g c [] UB.

Lemma ran_alloc {A} T g (f : fn A) t t' h : permitted g f -> alias_ok f -> ran T (alloc g f) t t' h ->
  exists s, ran T f t t' s /\ (at_exit (f_prog (alloc g f)) h -> at_exit (f_prog f) s) /\ f_out (alloc g f) (rf h) = f_out f (rf s).
Proof.
  intros P (_ & HO & dirty & D0 & OKS) H. inversion H as [os h0 t1 sf HT Wo Hp Hi R|ie os h0 m0 t1 cur sf HT Wo Wm Hp Hi R]; subst; cbn [alloc f_prog f_in f_out] in *.
  - pose proof (run_sim g f P dirty (t_e T) OKS os _ h0 (start_sim g f dirty h0 D0 Hp)) as X. rewrite R in X.
    destruct (run (t_e T) (f_prog f) os _) as [t1 s|] eqn:E; [|contradiction]. destruct X as [-> X]. exists s. split; [|split].
    + refine (ran_mp T f os {| pc := 0; rf := pull g (rf h0); rs := rs h0 |} t1 s HT Wo _ Hi E). reflexivity.
    + unfold at_exit. rewrite map_length. now rewrite (proj1 X).
    + exact (out_sim g f dirty s h HO X).
  - pose proof (start_sim g f dirty h0 D0 Hp) as S0.
    assert (EI : ie (rf h0) = ie (rf {| pc := 0; rf := pull g (rf h0); rs := rs h0 |})).
    { apply (ie_sreg T ie HT). cbn [rf]. unfold pull. destruct (p_special _ _ P SREG) as [-> _]; [cbn; tauto|reflexivity]. }
    rewrite EI in R. pose proof (irq_sim g f P dirty LE OKS ie os (ie_sreg T ie HT) (if ie (rf {| pc := 0; rf := pull g (rf h0); rs := rs h0 |}) then None else Some (m0, m0)) _ h0 S0) as X. rewrite R in X.
    destruct (run_irq LE (f_prog f) ie os _ _) as [[[t1 c1] s]|] eqn:E; [|contradiction]. destruct X as (-> & -> & X). exists s. split; [|split].
    + refine (ran_irq T f ie os {| pc := 0; rf := pull g (rf h0); rs := rs h0 |} m0 t1 c1 s HT Wo Wm _ Hi E). reflexivity.
    + unfold at_exit. rewrite map_length. now rewrite (proj1 X).
    + exact (out_sim g f dirty s h HO X).
Qed.
Lemma stuck_alloc {A} T g (f : fn A) : permitted g f -> alias_ok f -> stuck T (alloc g f) -> stuck T f.
Proof.
  intros P (_ & HO & dirty & D0 & OKS) H. unfold stuck in *. destruct (t_ie T) as [ie|] eqn:HT; cbn [alloc f_prog f_in] in H.
  - destruct H as (os & h0 & m0 & Wo & Wm & Hp & Hi & R). pose proof (start_sim g f dirty h0 D0 Hp) as S0.
    assert (EI : ie (rf h0) = ie (rf {| pc := 0; rf := pull g (rf h0); rs := rs h0 |})).
    { apply (ie_sreg T ie HT). cbn [rf]. unfold pull. destruct (p_special _ _ P SREG) as [-> _]; [cbn; tauto|reflexivity]. }
    rewrite EI in R. pose proof (irq_sim g f P dirty LE OKS ie os (ie_sreg T ie HT) (if ie (rf {| pc := 0; rf := pull g (rf h0); rs := rs h0 |}) then None else Some (m0, m0)) _ h0 S0) as X. rewrite R in X.
    destruct (run_irq LE (f_prog f) ie os _ _) as [[[t1 c1] s]|] eqn:E; [contradiction|].
    exists os, {| pc := 0; rf := pull g (rf h0); rs := rs h0 |}, m0. split; [exact Wo|]. split; [exact Wm|]. split; [reflexivity|]. split; [exact Hi|exact E].
  - destruct H as (os & h0 & Wo & Hp & Hi & R). pose proof (run_sim g f P dirty (t_e T) OKS os _ h0 (start_sim g f dirty h0 D0 Hp)) as X. rewrite R in X.
    destruct (run (t_e T) (f_prog f) os _) as [t1 s|] eqn:E; [contradiction|]. exists os, {| pc := 0; rf := pull g (rf h0); rs := rs h0 |}. split; [exact Wo|]. split; [reflexivity|]. split; [exact Hi|exact E].
Qed.

(* Whatever the allocation, the call does what it does with a register per operand: same steps visible to the others, same result. *)
Theorem C35_same_behaviour T g c t s : alloc_run T g c t s -> call_run T c t s.
Proof.
  intros H. destruct H as [H1|H1 H2|f t t' sf H1 H2 P R|f t t' sf r H1 H2 P R E O|f t t' sf H1 H2 P R E O|f H1 H2 P R].
  - now apply cr_panic.
  - now apply cr_unreachable.
  - destruct (ran_alloc T g f t t' sf P (op_alias T c f H2) R) as (s & R' & _ & _). exact (cr_running T c f t t' s H1 H2 R').
  - destruct (ran_alloc T g f t t' sf P (op_alias T c f H2) R) as (s & R' & E' & O'). rewrite O' in O. exact (cr_ret T c f t t' s r H1 H2 R' (E' E) O).
  - destruct (ran_alloc T g f t t' sf P (op_alias T c f H2) R) as (s & R' & E' & O'). rewrite O' in O. exact (cr_ub T c f t t' s H1 H2 R' (E' E) O).
  - exact (cr_stuck T c f H1 H2 (stuck_alloc T g f P (op_alias T c f H2) R)).
Qed.
(* Whatever the allocation, the block leaves every register it does not declare as an output as it was. *)
Theorem C35_operand_contract T g c f : op_impl T c = Impl f -> permitted g f -> honours_contract T (alloc g f).
Proof.
  intros H P. pose proof (C21_operand_contract T c f H) as C. pose proof (op_alias T c f H) as O.
  destruct T; cbn [honours_contract] in *; try exact (alloc_contract _ g f P O C);
  first [refine (alloc_contract_irq _ _ g f (ie_sreg Msp430 _ eq_refl) P O C) | refine (alloc_contract_irq _ _ g f (ie_sreg (Avr false false) _ eq_refl) P O C)].
Qed.
(* Whatever the allocation, more than 25 instructions are paid for by interference, spurious store-conditional failures (C23). *)
Theorem C35_progress T g c f : t_wf T -> op_args T c -> op_impl T c = Impl f -> permitted g f ->
  retries_paid T (alloc g f) (fst (op_cell c)) (snd (op_cell c)) 25.
Proof.
  intros W A H P. pose proof (C23_steps_paid_for_by_interference T c f W A H) as C. pose proof (op_alias T c f H) as O.
  assert (BI : forall ie, (forall s t : regs, s SREG = t SREG -> ie s = ie t) -> bounded_irq LE ie f 25 -> bounded_irq LE ie (alloc g f) 25).
  { intros ie HI B os h0 c0 Hp Hi HL. destruct O as (_ & HO & dirty & D0 & OKS). cbn [alloc f_prog f_in] in *.
    destruct (B os {| pc := 0; rf := pull g (rf h0); rs := rs h0 |} c0 eq_refl Hi HL) as (t & cur & sf & R & E).
    pose proof (irq_sim g f P dirty LE OKS ie os HI c0 _ h0 (start_sim g f dirty h0 D0 Hp)) as X. rewrite R in X.
    destruct (run_irq LE (map (alloc_instr g) (f_prog f)) ie os c0 h0) as [[[t1 c1] hf]|] eqn:Y; [|contradiction]. exists t1, c1, hf. split; [reflexivity|].
    destruct X as (_ & _ & X). unfold at_exit in *. rewrite map_length, (proj1 X). exact E. }
  destruct T; cbn [retries_paid] in *; first
  [ exact (BI _ (ie_sreg Msp430 _ eq_refl) C) | exact (BI _ (ie_sreg (Avr false false) _ eq_refl) C)
  | destruct C as [C|[C1 C]]; [left; exact (alloc_progress _ g f _ _ _ P O C)|right; split; [exact C1|exact (alloc_progress _ g f _ _ _ P O C)]] ].
Qed.

(* ---- any number of threads ---- *)
(* Conc.v's system, each call compiled with an allocation of its own *)
Inductive astep (T : arch) : sys -> event -> sys -> Prop :=
| a_inv S t c f g h0 : s_thr S t = None -> op_args T c -> op_pre T c = Ret tt -> op_impl T c = Impl f -> permitted g f ->
    pc h0 = O -> f_in (alloc g f) (rf h0) ->
    astep T S (EInv t (s_next S) (as_done T c)) (mksys (s_mem S) (setthr (s_thr S) t (Some (mkfly (s_next S) (as_done T c) (alloc g f) h0))) (Datatypes.S (s_next S)))
| a_step S t k c f s i ok j s' m' : s_thr S t = Some (mkfly k c f s) -> nth_error (f_prog f) (pc s) = Some i ->
    exec (t_e T) (f_prog f) i (mkor (s_mem S) ok j) s = Some (s', m') ->
    astep T S (EStep k (s_mem S, m')) (mksys m' (setthr (s_thr S) t (Some (mkfly k c f s'))) (s_next S))
| a_ret S t k c f s r : s_thr S t = Some (mkfly k c f s) -> at_exit (f_prog f) s -> f_out f (rf s) = Some r ->
    astep T S (ERet k r) (mksys (s_mem S) (setthr (s_thr S) t None) (s_next S))
| a_plain S m' : wf_mem m' -> astep T S (EPlain (s_mem S) m') (mksys m' (s_thr S) (s_next S)).
Inductive asteps (T : arch) : sys -> list event -> sys -> Prop :=
| asteps_nil S : asteps T S [] S
| asteps_cons S e S1 l S2 : astep T S e S1 -> asteps T S1 l S2 -> asteps T S (e :: l) S2.

(* the two systems in step *)
Inductive twin : option inflight -> option inflight -> Prop :=
| tw_none : twin None None
| tw_some k c f g dirty s h : permitted g f -> (forall s t, agree (f_clob f ++ special) s t -> f_out f s = f_out f t) ->
    instrs_ok (f_clob f) (f_late f) dirty (f_prog f) 0 (f_prog f) -> sim g f dirty s h ->
    twin (Some (mkfly k c f s)) (Some (mkfly k c (alloc g f) h)).
Definition twins (S' S : sys) : Prop := s_mem S' = s_mem S /\ s_next S' = s_next S /\ forall t, twin (s_thr S' t) (s_thr S t).
Lemma twins_set S' S t x y m n : twins S' S -> twin x y -> twins (mksys m (setthr (s_thr S') t x) n) (mksys m (setthr (s_thr S) t y) n).
Proof. intros (_ & _ & H) X. split; [reflexivity|split; [reflexivity|]]. intros u. cbn [s_thr]. unfold setthr. destruct (Nat.eqb u t); [exact X|apply H]. Qed.
Lemma twin_inv x k c g h : twin x (Some (mkfly k c g h)) -> exists f r dirty s, x = Some (mkfly k c f s) /\ g = alloc r f /\ permitted r f /\
  (forall s t, agree (f_clob f ++ special) s t -> f_out f s = f_out f t) /\ instrs_ok (f_clob f) (f_late f) dirty (f_prog f) 0 (f_prog f) /\ sim r f dirty s h.
Proof. intros H. inversion H; subst. now exists f, g0, dirty, s. Qed.
Lemma astep_step T S e S1 S' : astep T S e S1 -> twins S' S -> exists S1', step T S' e S1' /\ twins S1' S1.
Proof.
  intros H (EM & EN & ET). assert (TW : twins S' S) by (split; [exact EM|split; [exact EN|exact ET]]).
  destruct H as [S t c f g h0 H1 H2 H3 H4 P Hp Hi|S t k c f s i ok j s' m' H1 H2 H3|S t k c f s r H1 H2 H3|S m' H1].
  - destruct (op_alias T c f H4) as (_ & HO & dirty & D0 & OKS). pose proof (ET t) as X. rewrite H1 in X. inversion X as [Y|]; subst.
    eexists. split; [rewrite <- EN; apply (s_inv T S' t c f {| pc := 0; rf := pull g (rf h0); rs := rs h0 |} (eq_sym Y) H2 H3 H4 eq_refl Hi)|].
    rewrite EM, EN. apply (twins_set S' S t _ _ (s_mem S) (Datatypes.S (s_next S)) TW). apply (tw_some _ _ f g dirty); [exact P|exact HO|exact OKS|]. now apply start_sim.
  - pose proof (ET t) as X. rewrite H1 in X. apply twin_inv in X. destruct X as (f0 & g & dirty & s0 & Y & -> & P & HO & OKS & SM).
    cbn [alloc f_prog] in H2, H3. rewrite (proj1 SM), nth_error_map in H2. destruct (nth_error (f_prog f0) (pc s0)) as [i0|] eqn:N; [|discriminate H2]. injection H2 as <-.
    pose proof (exec_sim g f0 P dirty (t_e T) i0 (mkor (s_mem S) ok j) s0 s (Alloc.nth_ok f0 dirty (f_prog f0) 0 (pc s0) i0 OKS N) SM) as Z. rewrite H3 in Z.
    destruct (exec (t_e T) (f_prog f0) i0 (mkor (s_mem S) ok j) s0) as [[s1 m1]|] eqn:X1; [|contradiction]. destruct Z as [-> SM'].
    rewrite <- EM in X1. eexists. split; [rewrite <- EM; exact (s_step T S' t k c f0 s0 i0 ok j s1 m1 Y N X1)|].
    rewrite EN. apply (twins_set S' S t _ _ m1 (s_next S) TW). exact (tw_some _ _ f0 g dirty s1 s' P HO OKS SM').
  - pose proof (ET t) as X. rewrite H1 in X. apply twin_inv in X. destruct X as (f0 & g & dirty & s0 & Y & -> & P & HO & OKS & SM).
    cbn [alloc f_prog f_out] in H2, H3. rewrite (out_sim g f0 dirty s0 s HO SM) in H3. unfold at_exit in H2. rewrite map_length, (proj1 SM) in H2.
    eexists. split; [exact (s_ret T S' t k c f0 s0 r Y H2 H3)|]. rewrite EM, EN. apply (twins_set S' S t _ _ (s_mem S) (s_next S) TW). constructor.
  - eexists. split; [rewrite <- EM; exact (s_plain T S' m' H1)|]. split; [reflexivity|split; [exact EN|exact ET]].
Qed.
Lemma asteps_steps T l : forall S S2 S', asteps T S l S2 -> twins S' S -> exists S2', steps T S' l S2' /\ twins S2' S2.
Proof.
  induction l as [|e l IH]; intros S S2 S' H TW; inversion H as [|? ? S1 ? ? H1 H2]; subst; [exists S'; split; [constructor|exact TW]|].
  destruct (astep_step T S e S1 S' H1 TW) as (S1' & X1 & TW1). destruct (IH S1 S2 S1' H2 TW1) as (S2' & X2 & TW2). exists S2'. split; [econstructor; eassumption|exact TW2].
Qed.
Lemma twins_init m : twins (init m) (init m).
Proof. split; [reflexivity|split; [reflexivity|]]. intros t. constructor. Qed.
(* Every execution of a program is one in which every operand has a register of its own: same calls, same steps, same results, same memory. *)
Theorem C35_same_executions T m0 h S : asteps T (init m0) h S -> exists S', steps T (init m0) h S' /\ s_mem S' = s_mem S.
Proof. intros H. destruct (asteps_steps T h _ _ _ H (twins_init m0)) as (S' & X & TW). exists S'. split; [exact X|apply TW]. Qed.
Corollary C35_linearizable T m0 h S : t_ie T = None -> t_wf T -> wf_mem m0 -> asteps T (init m0) h S -> linearizable (t_e T) m0 h (s_mem S).
Proof. intros HT W Wm H. destruct (C35_same_executions T m0 h S H) as (S' & X & <-). now apply (system_linearizable T m0 h S'). Qed.

(* the same for the main program and its interrupt handlers on a single-core target *)
Inductive aistep (T : arch) (ie : regs -> bool) : sys -> event -> sys -> Prop :=
| ai_inv S t c f g h0 : may_run ie S t -> s_thr S t = None -> op_args T c -> op_pre T c = Ret tt -> op_impl T c = Impl f -> permitted g f ->
    pc h0 = O -> f_in (alloc g f) (rf h0) ->
    aistep T ie S (EInv t (s_next S) c) (mksys (s_mem S) (setthr (s_thr S) t (Some (mkfly (s_next S) c (alloc g f) h0))) (Datatypes.S (s_next S)))
| ai_step S t k c f s i ok j s' m' : may_run ie S t -> s_thr S t = Some (mkfly k c f s) -> nth_error (f_prog f) (pc s) = Some i ->
    exec (t_e T) (f_prog f) i (mkor (s_mem S) ok j) s = Some (s', m') ->
    aistep T ie S (EStep k (s_mem S, m')) (mksys m' (setthr (s_thr S) t (Some (mkfly k c f s'))) (s_next S))
| ai_ret S t k c f s r : may_run ie S t -> s_thr S t = Some (mkfly k c f s) -> at_exit (f_prog f) s -> f_out f (rf s) = Some r ->
    aistep T ie S (ERet k r) (mksys (s_mem S) (setthr (s_thr S) t None) (s_next S))
| ai_plain S t m' : may_run ie S t -> s_thr S t = None -> wf_mem m' -> aistep T ie S (EPlain (s_mem S) m') (mksys m' (s_thr S) (s_next S)).
Inductive aisteps (T : arch) (ie : regs -> bool) : sys -> list event -> sys -> Prop :=
| aisteps_nil S : aisteps T ie S [] S
| aisteps_cons S e S1 l S2 : aistep T ie S e S1 -> aisteps T ie S1 l S2 -> aisteps T ie S (e :: l) S2.
Lemma sim_ie T ie g f dirty s h : t_ie T = Some ie -> permitted g f -> @sim rval g f dirty s h -> ie (rf h) = ie (rf s).
Proof.
  intros HT P (_ & _ & [_ D]). apply (ie_sreg T ie HT). rewrite (D SREG) by (apply in_or_app; right; cbn; tauto). destruct (p_special _ _ P SREG) as [-> _]; [cbn; tauto|reflexivity].
Qed.
Lemma twins_may T ie S' S t : t_ie T = Some ie -> twins S' S -> may_run ie S t -> may_run ie S' t.
Proof.
  intros HT (_ & _ & TW) M u x N H. pose proof (TW u) as X. rewrite H in X. inversion X as [|k c f g dirty s h P HO OKS SM E1 E2]; subst. cbn [k_st].
  rewrite <- (sim_ie T ie g f dirty s h HT P SM). exact (M u _ N (eq_sym E2)).
Qed.
Lemma twins_unmasked T ie S' S : t_ie T = Some ie -> twins S' S -> unmasked ie S -> unmasked ie S'.
Proof.
  intros HT (_ & _ & TW) M u x H. pose proof (TW u) as X. rewrite H in X. inversion X as [|k c f g dirty s h P HO OKS SM E1 E2]; subst. cbn [k_st].
  rewrite <- (sim_ie T ie g f dirty s h HT P SM). exact (M u _ (eq_sym E2)).
Qed.
Lemma aistep_step T ie S e S1 S' : t_ie T = Some ie -> aistep T ie S e S1 -> twins S' S -> exists S1', istep T ie S' e S1' /\ twins S1' S1.
Proof.
  intros HT H (EM & EN & ET). assert (TW : twins S' S) by (split; [exact EM|split; [exact EN|exact ET]]).
  destruct H as [S t c f g h0 M H1 H2 H3 H4 P Hp Hi|S t k c f s i ok j s' m' M H1 H2 H3|S t k c f s r M H1 H2 H3|S t m' M H1 H2]; pose proof (twins_may T ie S' S t HT TW M) as M'.
  - destruct (op_alias T c f H4) as (_ & HO & dirty & D0 & OKS). pose proof (ET t) as X. rewrite H1 in X. inversion X as [Y|]; subst.
    eexists. split; [rewrite <- EN; apply (is_inv T ie S' t c f {| pc := 0; rf := pull g (rf h0); rs := rs h0 |} M' (eq_sym Y) H2 H3 H4 eq_refl Hi)|].
    rewrite EM, EN. apply (twins_set S' S t _ _ (s_mem S) (Datatypes.S (s_next S)) TW). apply (tw_some _ _ f g dirty); [exact P|exact HO|exact OKS|]. now apply start_sim.
  - pose proof (ET t) as X. rewrite H1 in X. apply twin_inv in X. destruct X as (f0 & g & dirty & s0 & Y & -> & P & HO & OKS & SM).
    cbn [alloc f_prog] in H2, H3. rewrite (proj1 SM), nth_error_map in H2. destruct (nth_error (f_prog f0) (pc s0)) as [i0|] eqn:N; [|discriminate H2]. injection H2 as <-.
    pose proof (exec_sim g f0 P dirty (t_e T) i0 (mkor (s_mem S) ok j) s0 s (Alloc.nth_ok f0 dirty (f_prog f0) 0 (pc s0) i0 OKS N) SM) as Z. rewrite H3 in Z.
    destruct (exec (t_e T) (f_prog f0) i0 (mkor (s_mem S) ok j) s0) as [[s1 m1]|] eqn:X1; [|contradiction]. destruct Z as [-> SM'].
    rewrite <- EM in X1. eexists. split; [rewrite <- EM; exact (is_step T ie S' t k c f0 s0 i0 ok j s1 m1 M' Y N X1)|].
    rewrite EN. apply (twins_set S' S t _ _ m1 (s_next S) TW). exact (tw_some _ _ f0 g dirty s1 s' P HO OKS SM').
  - pose proof (ET t) as X. rewrite H1 in X. apply twin_inv in X. destruct X as (f0 & g & dirty & s0 & Y & -> & P & HO & OKS & SM).
    cbn [alloc f_prog f_out] in H2, H3. rewrite (out_sim g f0 dirty s0 s HO SM) in H3. unfold at_exit in H2. rewrite map_length, (proj1 SM) in H2.
    eexists. split; [exact (is_ret T ie S' t k c f0 s0 r M' Y H2 H3)|]. rewrite EM, EN. apply (twins_set S' S t _ _ (s_mem S) (s_next S) TW). constructor.
  - pose proof (ET t) as X. rewrite H1 in X. inversion X as [Y|]; subst.
    eexists. split; [rewrite <- EM; exact (is_plain T ie S' t m' M' (eq_sym Y) H2)|]. split; [reflexivity|split; [exact EN|exact ET]].
Qed.
Lemma aisteps_steps T ie l : t_ie T = Some ie -> forall S S2 S', aisteps T ie S l S2 -> twins S' S -> exists S2', isteps T ie S' l S2' /\ twins S2' S2.
Proof.
  intros HT. induction l as [|e l IH]; intros S S2 S' H TW; inversion H as [|? ? S1 ? ? H1 H2]; subst; [exists S'; split; [constructor|exact TW]|].
  destruct (aistep_step T ie S e S1 S' HT H1 TW) as (S1' & X1 & TW1). destruct (IH S1 S2 S1' H2 TW1) as (S2' & X2 & TW2). exists S2'. split; [econstructor; eassumption|exact TW2].
Qed.
Theorem C35_irq_same_executions T ie m0 h S : t_ie T = Some ie -> aisteps T ie (init m0) h S ->
  exists S', isteps T ie (init m0) h S' /\ s_mem S' = s_mem S /\ (unmasked ie S -> unmasked ie S').
Proof.
  intros HT H. destruct (aisteps_steps T ie h HT _ _ _ H (twins_init m0)) as (S' & X & TW). exists S'. split; [exact X|]. split; [apply TW|].
  exact (twins_unmasked T ie S' S HT TW).
Qed.
Corollary C35_irq_linearizable T ie m0 h S : t_ie T = Some ie -> t_wf T -> wf_mem m0 -> aisteps T ie (init m0) h S ->
  exists mv, linearizable (t_e T) m0 h mv /\ (unmasked ie S -> mv = s_mem S).
Proof.
  intros HT W Wm H. destruct (C35_irq_same_executions T ie m0 h S HT H) as (S' & X & E & U). destruct (C07_irq_linearizable T ie m0 h S' HT W Wm X) as (mv & L & Q).
  exists mv. split; [exact L|]. intros V. rewrite <- E. auto.
Qed.

(* ---- sanity checks ---- *)
(* an allocation that shares a register: riscv's load declares [out] as lateout, so it may get the register of [src] *)
Definition share (a b : reg) : reg -> reg := fun r => if reg_beq r a then b else r.
Lemma share_permitted {A} a b (f : fn A) : ~ In a special -> ~ In b special -> ~ In b (f_clob f) -> In a (f_late f) -> permitted (share a b) f.
Proof.
  intros Na Nb Cb La. unfold share. split.
  - intros r Hr. split.
    + destruct (reg_beq r a) eqn:E; [|reflexivity]. apply rbeq_iff in E. now subst.
    + intros x. destruct (reg_beq x a) eqn:E; [|auto]. intros <-. contradiction.
  - intros r x Hr Hx. destruct (reg_beq r a) eqn:E1, (reg_beq x a) eqn:E2; try rewrite rbeq_iff in E1; try rewrite rbeq_iff in E2; intros E; try congruence; subst; contradiction.
  - intros r x Hr Nl. destruct (reg_beq r a) eqn:E1; [apply rbeq_iff in E1; subst; contradiction|]. destruct (reg_beq x a) eqn:E2; [|auto]. intros <-. contradiction.
Qed.
(* a register per operand: the blocks as they are *)
Lemma id_permitted {A} (f : fn A) : permitted (fun r => r) f.
Proof. split; [intros r _; split; auto|auto|auto]. Qed.
Ltac notin := cbn; intuition discriminate.
Example C35_sharing_load : exists f t, op_impl (Riscv rv64) (OLoad 1 SeqCst 0x1003) = Impl f /\ permitted (share Out Src) f /\ share Out Src Out = share Out Src Src /\
  alloc_run (Riscv rv64) (share Out Src) (OLoad 1 SeqCst 0x1003) t (Returned (RVal 0x77)).
Proof.
  eexists _, _. split; [reflexivity|]. assert (P : permitted (share Out Src) (fmap RVal (rv_load_fn rv64 1 0x1003 (FRv true false true true, FRv true true true true)))) by (apply share_permitted; notin).
  split; [exact P|]. split; [reflexivity|].
  eapply ac_ret; [reflexivity|reflexivity|exact P| | |].
  - eapply ran_mp with (os := ex_os) (s0 := mkst O (fun r => match r with Src => 0x1003 | _ => 5 end) None); [reflexivity|apply oracles_wf|reflexivity|reflexivity|reflexivity].
  - reflexivity.
  - vm_compute. reflexivity.
Qed.
(* the rules matter: were the [out] operand of MIPS' compare_exchange declared lateout, it could get the register of [old], the
   comparison would compare the loaded value with itself, and 0 would be exchanged although 7 was expected *)
Definition mips32 : mi_cfg := {| mi_w := 32; mi_uw := 32; mi_r6 := false; mi_e := LE |}.
Definition mips_late_cas : fn (Z * bool) :=
  let f := mi_cas_fn mips32 4 0 7 9 (FNone, FNone) in mkfnl (f_prog f) (f_in f) (f_out f) (f_clob f) [Out].
Example C35_early_clobber_matters : permitted (share Out Old) mips_late_cas /\ atomic_fn LE mips_late_cas (cas_spec LE 0 4 7 9) /\
  ~ atomic_fn LE (alloc (share Out Old) mips_late_cas) (cas_spec LE 0 4 7 9).
Proof.
  split; [apply share_permitted; notin|]. split.
  { assert (W : mi_wf mips32) by (left; split; reflexivity).
    refine (all_cas_atomic (Mips mips32) 4 Relaxed Relaxed 0 7 9 (mi_cas_fn mips32 4 0 7 9 (FNone, FNone)) W _ _ _ _ _ _); [split; [cbn; lia|reflexivity]|vm_compute; split; congruence|vm_compute; split; congruence|reflexivity|reflexivity|reflexivity]. }
  intros H. set (o := mkor (bytes []) true 0).
  assert (W : wf_oracles (repeat o 10)) by (repeat constructor; apply bytes_wf).
  specialize (H (repeat o 10) (mkst O (fun r => match r with Old => 7 | New => 9 | _ => 0 end) None) W eq_refl).
  assert (I0 : f_in (alloc (share Out Old) mips_late_cas) (fun r => match r with Old => 7 | New => 9 | _ => 0 end)) by (split; [reflexivity|split; vm_compute; repeat split; congruence]).
  specialize (H I0).
  destruct (run LE _ (repeat o 10) _) as [t sf|] eqn:R; [|contradiction].
  assert (F : Forall (fun st => fst st = bytes []) t /\ at_exit (f_prog (alloc (share Out Old) mips_late_cas)) sf /\ f_out (alloc (share Out Old) mips_late_cas) (rf sf) = Some (0, true)).
  { cbn in R. injection R as <- <-. split; [repeat constructor|]. split; vm_compute; reflexivity. }
  destruct F as (F & X & O). destruct H as [H _]. destruct (H X) as (r & Or & (t1 & m & m' & t2 & -> & _ & _ & SP)). rewrite O in Or. injection Or as <-.
  apply Forall_app in F. destruct F as [_ F]. inversion F as [|? ? F1 _]; subst. cbn [fst] in F1. subst m. destruct SP as [_ SP]. cbn [snd] in SP. destruct SP as [SP _]. vm_compute in SP. discriminate SP.
Qed.
