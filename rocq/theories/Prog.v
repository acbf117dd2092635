(* Proof machinery for [progress] and [contract].  No specifications here. *)
From Verif Require Export Sym.

Section T.
  Context {A : Type} (e : endian) (f : fn A) (a n : Z) (L : nat).
  Let p := f_prog f.
  Definition delta (w : Z) (o : oracle) : nat := if o_ok o && (rd e (o_mem o) a n =? w) then 0 else 1.
  Definition T (k b : nat) (w : Z) (s : tst) : Prop :=
    forall os, length os = k -> wf_oracles os ->
      (length (trace_of (run e p os s)) <= b + L * disturb e a n w os)%nat.
  Lemma T_exit k b w s : nth_error p (pc s) = None -> T k b w s.
  Proof. intros H os _ _. destruct os; cbn [run]; [cbn; lia|]. fold p. rewrite H. cbn. lia. Qed.
  (* [b] instructions of budget plus [x] observed interference events *)
  Lemma T_step k b x w s i : nth_error p (pc s) = Some i ->
    (forall k' o d, k = S k' -> wf_mem (o_mem o) -> (d = 0%nat -> o_ok o = true /\ rd e (o_mem o) a n = w) -> 
       match exec e p i o s with
       | Some (s', m') => T k' (b + L * (d + x)) (rd e (o_mem o) a n) s'
       | None => True end) ->
    T k (S b + L * x) w s.
  Proof.
    intros Hi H os Hl Hw. destruct os as [|o os]; cbn [length] in Hl; [cbn; lia|].
    inversion Hw as [|? ? Ho Hw']; subst. cbn [run disturb]. fold p. rewrite Hi.
    specialize (H (length os) o (delta w o) eq_refl Ho).
    unfold delta in H. destruct (exec e p i o s) as [[s' m']|]; [|cbn; lia].
    set (d := if o_ok o && (rd e (o_mem o) a n =? w) then 0%nat else 1%nat) in *.
    assert (T (length os) (b + L * (d + x)) (rd e (o_mem o) a n) s') as HT.
    { apply H. subst d. destruct (o_ok o); cbn [andb]; [|discriminate]. destruct (Z.eqb_spec (rd e (o_mem o) a n) w); [auto|discriminate]. }
    specialize (HT os eq_refl Hw'). destruct (run e p os s') eqn:R; cbn [trace_of length] in *; [|lia].
    clearbody d. nia.
  Qed.
  Lemma T_back k b0 b x w s : (1 <= x)%nat -> (b0 <= L)%nat -> T k (b0 + L * 0) w s -> T k (b + L * x) w s.
  Proof. intros Hx Hb HT os Hl Hw. specialize (HT os Hl Hw). nia. Qed.
  Lemma T_weak k b0 b x w s : (b0 <= b)%nat -> T k (b0 + L * 0) w s -> T k (b + L * x) w s.
  Proof. intros Hb HT os Hl Hw. specialize (HT os Hl Hw). nia. Qed.
  Lemma T_le k b b' w s : (b' <= b)%nat -> T k b' w s -> T k b w s.
  Proof. intros Hb HT os Hl Hw. specialize (HT os Hl Hw). lia. Qed.
  Lemma progress_intro : (forall k s0 w, pc s0 = O -> f_in f (rf s0) -> T k (L + L * 0) w s0) -> progress e f a n L.
  Proof. intros H os s0 w Hw Hp Hin. specialize (H (length os) s0 w Hp Hin os eq_refl Hw). fold p. lia. Qed.
End T.

Ltac stt := eapply T_step; [cbnx; reflexivity | let k := fresh "k" in let o := fresh "o" in let d := fresh "d" in
   let Hk := fresh "Hk" in let Ho := fresh "Ho" in let Hd := fresh "Hd" in intros k o d Hk Ho Hd; cbnx ].
Ltac got := repeat (stt; match goal with |- T _ _ _ _ _ _ _ _ _ => idtac end).
Ltac startt f r := apply progress_intro; let k := fresh "k0" in intros ? [k f r] ? Hpc Hin; cbn in Hpc; subst k; cbn [f_in rf] in Hin.
(* split on a branch / store-conditional outcome *)
Ltac tsplit :=
  match goal with
  | |- match (if ?b then _ else _) with _ => _ end => let E := fresh "E" in destruct b eqn:E
  end.
Ltac tend := apply T_exit; reflexivity.

(* ---- operand contracts ---- *)
(* [r] keeps its value under every execution of the instruction *)
Definition keeps (e : endian) (p : list instr) (r : reg) (i : instr) : Prop :=
  forall o s s' m', exec e p i o s = Some (s', m') -> rf s' r = rf s r.
Lemma keeps_run e p r : (forall i, In i p -> keeps e p r i) ->
  forall os s t sf, run e p os s = Ran t sf -> rf sf r = rf s r.
Proof.
  intros H os. induction os as [|o os IH]; intros s t sf R; cbn [run] in R.
  - now inversion R.
  - destruct (nth_error p (pc s)) as [i|] eqn:Hi; [|now inversion R].
    destruct (exec e p i o s) as [[s' m']|] eqn:X; [|discriminate].
    destruct (run e p os s') eqn:R'; [|discriminate]. inversion R; subst.
    rewrite (IH _ _ _ R'). eapply H; eauto. eapply nth_error_In; eauto.
Qed.
Lemma contract_intro {A} e (f : fn A) :
  (forall r, ~ In r (f_clob f) -> forall i, In i (f_prog f) -> keeps e (f_prog f) r i) -> contract e f.
Proof. intros H os s0 t sf _ _ _ R _ r Hr. eapply keeps_run; eauto. Qed.
Lemma upd_other f r v x : x <> r -> upd f r v x = f x.
Proof. intros H. unfold upd. destruct (reg_beq x r) eqn:E; [|reflexivity]. exfalso. apply H. now apply internal_reg_dec_bl. Qed.
Lemma upds_other l : forall f x, Forall (fun '(r, _) => x <> r) l -> upds f l x = f x.
Proof.
  induction l as [|[r v] l IH]; intros f x H; [reflexivity|]. inversion H; subst. cbn [upds]. rewrite IH by auto. now apply upd_other.
Qed.
Section Keeps.
  Context (e : endian) (p : list instr) (x : reg).
  Ltac kp := let X := fresh "X" in intros ? ? ? ? X; cbn [exec] in X; 
    repeat match type of X with
      | (let '(_, _) := ?y in _) = _ => destruct y
      | (if ?b then _ else _) = _ => destruct b
      | match ?y with Some _ => _ | None => _ end = _ => destruct y; [|discriminate X] end;
    inversion X; subst; cbn [rf]; rewrite ?upd_other by auto; auto.
  Lemma kp_lab n : keeps e p x (Lab n). Proof. kp. Qed.
  Lemma kp_fence f : keeps e p x (Fence f). Proof. kp. Qed.
  Lemma kp_ld sz y o d a off : x <> d -> keeps e p x (Ld sz y o d a off). Proof. intros H. kp. Qed.
  Lemma kp_st sz o s0 a off : keeps e p x (St sz o s0 a off). Proof. kp. Qed.
  Lemma kp_ll sz y o d a : x <> d -> keeps e p x (LL sz y o d a). Proof. intros H. kp. Qed.
  Lemma kp_llp t sz o r1 r2 a : x <> r1 -> x <> r2 -> keeps e p x (LLp t sz o r1 r2 a). Proof. intros H H'. kp. Qed.
  Lemma kp_sc sz o rst okv fv rsrc a : x <> rst -> keeps e p x (SC sz o rst okv fv rsrc a). Proof. intros H. kp. Qed.
  Lemma kp_scp sz o rst okv fv r1 r2 a : x <> rst -> keeps e p x (SCp sz o rst okv fv r1 r2 a). Proof. intros H. kp. Qed.
  Lemma kp_clrex b : keeps e p x (ClrexIf b). Proof. kp. Qed.
  Lemma kp_rmw sz o a wf outs : (forall ok j v f, Forall (fun '(r, _) => x <> r) (outs ok j v f)) -> keeps e p x (Rmw sz o a wf outs).
  Proof. intros H. intros o' s s' m' X. cbn [exec] in X. inversion X; subst. cbn [rf]. now apply upds_other. Qed.
  Lemma kp_op d g l : x <> d -> keeps e p x (Op d g l). Proof. intros H. kp. Qed.
  Lemma kp_op2 d d' g l : x <> d -> x <> d' -> keeps e p x (Op2 d d' g l). Proof. intros H H'. kp. Qed.
  Lemma kp_br c l t : keeps e p x (Br c l t). Proof. kp. Qed.
  Lemma kp_jmp t : keeps e p x (Jmp t). Proof. kp. Qed.
End Keeps.
Ltac kne Hr := let E := fresh in intros E; subst; apply Hr; cbn; tauto.
Ltac keep1n r Hr Hn :=
  cbv [mov li and_ or_ xor_ andn_ beq_ bne_ beqz_ bnez_];
  lazymatch goal with
  | |- keeps _ _ _ (Lab _) => apply kp_lab
  | |- keeps _ _ _ (Fence _) => apply kp_fence
  | |- keeps _ _ _ (Ld _ _ _ _ _ _) => apply kp_ld
  | |- keeps _ _ _ (St _ _ _ _ _) => apply kp_st
  | |- keeps _ _ _ (LL _ _ _ _ _) => apply kp_ll
  | |- keeps _ _ _ (LLp _ _ _ _ _ _) => apply kp_llp
  | |- keeps _ _ _ (SC _ _ _ _ _ _ _) => apply kp_sc
  | |- keeps _ _ _ (SCp _ _ _ _ _ _ _ _) => apply kp_scp
  | |- keeps _ _ _ (ClrexIf _) => apply kp_clrex
  | |- keeps _ _ _ (Rmw _ _ _ _ _) => apply kp_rmw; let f := fresh "f" in intros ? ? ? f; cbv beta;
        repeat match goal with |- context [if ?b then _ else _] => destruct b end; repeat constructor
  | |- keeps _ _ _ (Op _ _ _) => apply kp_op
  | |- keeps _ _ _ (Op2 _ _ _ _) => apply kp_op2
  | |- keeps _ _ _ (Br _ _ _) => apply kp_br
  | |- keeps _ _ _ (Jmp _) => apply kp_jmp
  end; first [kne Hr | exact Hn].
Ltac keep1 r Hr := keep1n r Hr Hr.
Ltac contract_tac :=
  apply contract_intro; cbn [f_clob f_prog]; let r := fresh "r" in let Hr := fresh "Hr" in let i := fresh "i" in let Hi := fresh in
  intros r Hr i Hi; cbn [In] in Hi;
  repeat (destruct Hi as [<- | Hi]; [keep1 r Hr|]); contradiction.

(* fully automatic exploration of one loop: [h] = pc of the loop head, [IH] = induction hypothesis,
   [rew] = rewriting tactic for register facts, [side] = solver for the facts at the loop head *)
Ltac norm_if E :=
  repeat first [rewrite negb_true_iff in E | rewrite negb_false_iff in E | rewrite Z.eqb_eq in E | rewrite Z.eqb_neq in E].
Ltac tback IH side :=
  eapply T_back; [ | | apply IH; cbnx; side];
  [ match goal with |- (1 <= ?X)%nat => let EX := fresh "EX" in destruct X eqn:EX; [exfalso | apply le_n_S, Nat.le_0_l];
      repeat (apply Nat.eq_add_0 in EX; let d0 := fresh "d0" in destruct EX as [d0 EX]; 
        match goal with H : ?d = 0%nat -> _ /\ _, d0 : ?d = 0%nat |- _ =>
           let x := fresh "Xk" in let y := fresh "Yk" in destruct (H d0) as [x y]; clear H d0 end) end
  | repeat constructor ].
Ltac tcontra :=
  repeat match goal with X : o_ok _ = true |- _ => rewrite X in *; clear X end;
  repeat match goal with X : rd ?e (o_mem ?o) ?a ?n = _ |- _ => rewrite X in *; clear X end;
  rewrite ?Z.eqb_refl in *; try discriminate; try lia.
Ltac trun h IH rew side :=
  match goal with
  | |- T _ _ _ _ _ _ _ _ (mkst h _ _) => tback IH side; tcontra
  | |- T _ _ _ _ _ _ _ _ _ => first [ tend | stt; tnext h IH rew side ]
  end
with tnext h IH rew side :=
  match goal with
  | |- T _ _ _ _ _ _ _ _ _ => trun h IH rew side
  | |- _ => rew; rewrite ?sc_may_hit, ?scp_may_hit;
            match goal with
            | |- match (if ?b then _ else _) with _ => _ end =>
                let E := fresh "E" in destruct b eqn:E; cbnx; norm_if E; try (exfalso; clear - E; lia); try congruence;
                tnext h IH rew side
            | |- T _ _ _ _ _ _ _ _ _ => trun h IH rew side
            end
  end.
Ltac tloop h IH rew side := stt; tnext h IH rew side.
Ltac tline := trun 1000%nat I ltac:(idtac) ltac:(idtac).
(* loop invariant [Inv] at pc [h], budget [b] from there *)
Ltac tinv h b Inv Loop :=
  match goal with |- progress ?e ?g ?a ?n ?L =>
    assert (forall k f r w, Inv f -> T e g a n L k (b + L * 0) w (mkst h f r)) as Loop;
    [ let k := fresh "k" in induction k as [k IH] using lt_wf_ind; let f := fresh "f" in let r := fresh "r" in let w := fresh "w" in
      intros f r w Hi; cbv beta in Hi | ] end.
Ltac tenter Loop := eapply T_weak; [|apply Loop; cbnx]; [repeat constructor|].

(* ---- compare-and-swap retry loops: the register holding the expected word is [prev]; it may be stale only
   if interference has already been paid for ([x] > 0) ---- *)
Lemma T_back1 {A} e (f : fn A) a n L k b0 b x w s : (b0 <= L)%nat -> (1 <= x)%nat ->
  T e f a n L k (b0 + L * (x - 1)) w s -> T e f a n L k (b + L * x) w s.
Proof. intros Hb Hx HT os Hl Hw. specialize (HT os Hl Hw). nia. Qed.
Lemma T_weakx {A} e (f : fn A) a n L k b0 b x w s : (b0 <= b)%nat -> T e f a n L k (b0 + L * x) w s -> T e f a n L k (b + L * x) w s.
Proof. intros Hb HT os Hl Hw. specialize (HT os Hl Hw). nia. Qed.
Ltac tinv_w h b Inv prev Loop :=
  match goal with |- progress ?e ?g ?a ?n ?L =>
    assert (forall k f r w x, Inv f -> (x = 0%nat -> prev f = w) -> T e g a n L k (b + L * x) w (mkst h f r)) as Loop;
    [ let k := fresh "k" in induction k as [k IH] using lt_wf_ind; let f := fresh "f" in let r := fresh "r" in let w := fresh "w" in
      let x := fresh "x" in intros f r w x Hi Hx; cbv beta in Hi, Hx | ] end.
(* case split on a condition inside the register file *)
Ltac tcase E :=
  match goal with |- T _ _ _ _ _ _ _ _ (mkst _ ?F _) =>
    match F with context [if ?b then _ else _] => destruct b eqn:E; cbnx; norm_if E end end.
(* from the sum of interference counts being zero, every observation agrees *)
Ltac tzero :=
  repeat match goal with H : (_ + _ = 0)%nat |- _ => apply Nat.eq_add_0 in H; destruct H end;
  repeat match goal with H : ?d = 0%nat -> _, d0 : ?d = 0%nat |- _ => specialize (H d0) end;
  repeat match goal with H : _ /\ _ |- _ => destruct H end.
(* straight-line (loop-free) code with conditions inside the register file *)
Ltac tlinec :=
  match goal with
  | |- T _ _ _ _ _ _ _ _ _ => first [ tend | let E := fresh "E" in tcase E; tlinec | stt; tlinec ]
  | |- match (if ?b then _ else _) with _ => _ end =>
                let E := fresh "E" in destruct b eqn:E; cbnx; norm_if E; try (exfalso; clear - E; lia); try congruence; tlinec
  end.

(* ---- a register that is saved, used and restored: an invariant indexed by the program counter ---- *)
Lemma inv_run e p (Inv : nat -> regs -> Prop) :
  (forall i o s s' m', nth_error p (pc s) = Some i -> Inv (pc s) (rf s) -> exec e p i o s = Some (s', m') -> Inv (pc s') (rf s')) ->
  forall os s t sf, Inv (pc s) (rf s) -> run e p os s = Ran t sf -> Inv (pc sf) (rf sf).
Proof.
  intros H os. induction os as [|o os IH]; intros s t sf Hs R; cbn [run] in R.
  - now inversion R; subst.
  - destruct (nth_error p (pc s)) as [i|] eqn:Hi; [|inversion R; subst; exact Hs].
    destruct (exec e p i o s) as [[s' m']|] eqn:X; [|discriminate].
    destruct (run e p os s') eqn:R'; [|discriminate]. inversion R; subst. eapply IH; [eapply H; eauto|eauto].
Qed.
Lemma contract_save {A} e (f : fn A) (rb : reg) (Inv : Z -> nat -> regs -> Prop) :
  (forall r, ~ In r (f_clob f) -> r <> rb -> forall i, In i (f_prog f) -> keeps e (f_prog f) r i) ->
  (forall g, Inv (g rb) 0%nat g) ->
  (forall b g, Inv b (length (f_prog f)) g -> g rb = b) ->
  (forall b i o s s' m', nth_error (f_prog f) (pc s) = Some i -> Inv b (pc s) (rf s) ->
      exec e (f_prog f) i o s = Some (s', m') -> Inv b (pc s') (rf s')) -> contract e f.
Proof.
  intros Hk H0 H1 H2 os s0 t sf Hp _ _ R He r Hr. destruct (reg_eq_dec r rb) as [->|N].
  - apply (H1 (rf s0 rb)). rewrite <- He. eapply (inv_run e (f_prog f) (Inv (rf s0 rb))); eauto. rewrite Hp. apply H0.
  - eapply keeps_run; eauto.
Qed.
