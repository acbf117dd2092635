(* L3: decision procedure for facts about all runs of a block: explore the finite graph of (pc, dependency state, monitor state, known
   register values).  Proof machinery, no specifications. *)
From Verif Require Export Monitor.

Definition rfl_beq (x y : rfl) : bool :=
  Bool.eqb (r_t x) (r_t y) && Bool.eqb (r_h x) (r_h y) && Bool.eqb (r_a x) (r_a y) && Bool.eqb (r_f x) (r_f y) && Bool.eqb (r_g x) (r_g y) &&
  Bool.eqb (r_c x) (r_c y).
Lemma rfl_beq_eq x y : rfl_beq x y = true -> x = y.
Proof.
  destruct x, y. unfold rfl_beq; cbn -[Bool.eqb]. intros H. repeat (apply andb_true_iff in H; destruct H as [H ?]).
  repeat match goal with E : Bool.eqb _ _ = true |- _ => apply Bool.eqb_prop in E end. now subst.
Qed.
Definition mq_beq (x y : mq) : bool :=
  Bool.eqb (q_rs x) (q_rs y) && Bool.eqb (q_ws x) (q_ws y) && Bool.eqb (q_hr x) (q_hr y) && Bool.eqb (q_hw x) (q_hw y) &&
  Bool.eqb (q_as x) (q_as y) && Bool.eqb (q_af x) (q_af y) && rfl_beq (q_c x) (q_c y) && rfl_beq (q_e x) (q_e y) &&
  Bool.eqb (q_sm x) (q_sm y) && Bool.eqb (q_wt x) (q_wt y) && Bool.eqb (q_wh x) (q_wh y) && Bool.eqb (q_wl x) (q_wl y) &&
  Bool.eqb (q_wf x) (q_wf y) && Bool.eqb (q_wg x) (q_wg y) && Bool.eqb (q_wp x) (q_wp y).
Lemma mq_beq_eq x y : mq_beq x y = true -> x = y.
Proof.
  destruct x, y. unfold mq_beq; cbn -[Bool.eqb rfl_beq]. intros H.
  repeat (apply andb_true_iff in H; destruct H as [H ?]).
  repeat match goal with E : Bool.eqb _ _ = true |- _ => apply Bool.eqb_prop in E | E : rfl_beq _ _ = true |- _ => apply rfl_beq_eq in E end. now subst.
Qed.

(* known values of the tracked registers [keep]; [brs]: tracked registers that only ever hold 0 or 1 *)
Definition av := list (option Z).
Record ast := mkast { s_pc : nat; s_t : tn; s_q : mq; s_v : av }.

Fixpoint list_beq {A} (eqb : A -> A -> bool) (x y : list A) : bool :=
  match x, y with [], [] => true | a :: x', b :: y' => eqb a b && list_beq eqb x' y' | _, _ => false end.
Lemma list_beq_eq {A} (eqb : A -> A -> bool) : (forall a b, eqb a b = true -> a = b) -> forall x y, list_beq eqb x y = true -> x = y.
Proof.
  intros H. induction x as [|a x IH]; intros [|b y] E; cbn in E; try discriminate E; auto.
  apply andb_true_iff in E. destruct E. f_equal; auto.
Qed.
Definition oz_beq (x y : option Z) : bool := match x, y with Some a, Some b => a =? b | None, None => true | _, _ => false end.
Lemma oz_beq_eq x y : oz_beq x y = true -> x = y.
Proof. destruct x, y; cbn; intros H; try discriminate H; auto. apply Z.eqb_eq in H. now subst. Qed.
Definition ast_beq (x y : ast) : bool :=
  Nat.eqb (s_pc x) (s_pc y) && list_beq reg_beq (ta (s_t x)) (ta (s_t y)) && Bool.eqb (ll (s_t x)) (ll (s_t y)) &&
  mq_beq (s_q x) (s_q y) && list_beq oz_beq (s_v x) (s_v y).
Lemma ast_beq_eq x y : ast_beq x y = true -> x = y.
Proof.
  destruct x as [p [a l] q v], y as [p' [a' l'] q' v']. unfold ast_beq. cbn [s_pc s_t s_q s_v ta ll]. intros H.
  apply andb_true_iff in H. destruct H as [H H5]. apply andb_true_iff in H. destruct H as [H H4].
  apply andb_true_iff in H. destruct H as [H H3]. apply andb_true_iff in H. destruct H as [H1 H2].
  apply Nat.eqb_eq in H1. apply list_beq_eq in H2; [|intros; now apply internal_reg_dec_bl]. apply Bool.eqb_prop in H3.
  apply mq_beq_eq in H4. apply list_beq_eq in H5; [|apply oz_beq_eq]. now subst.
Qed.

Section K.
(* [zr] = (flag register, its value after an atomic instruction that wrote, its value otherwise); [wm]: whether the atomic instructions of the block always / never write, if known *)
Context (M : mm) (e : endian) (p : list instr) (keep brs : list reg) (wm : option bool) (zr : option (reg * Z * Z)).

Fixpoint look (ks : list reg) (v : av) (r : reg) : option Z :=
  match ks, v with k :: ks', x :: v' => if reg_beq r k then x else look ks' v' r | _, _ => None end.
Fixpoint put (ks : list reg) (v : av) (r : reg) (x : option Z) : av :=
  match ks, v with k :: ks', y :: v' => (if reg_beq r k then x else y) :: put ks' v' r x | _, _ => [] end.
Definition kept (r : reg) : bool := inr r keep.
Fixpoint known (v : av) (rs : list reg) : option (list Z) :=
  match rs with
  | [] => Some []
  | r :: rs' => match look keep v r, known v rs' with Some x, Some l => Some (x :: l) | _, _ => None end
  end.
Definition none : av := map (fun _ => None) keep.

(* possible values of [r] after it is written by an operation on [srcs] *)
Definition op_vals (j : Z) (v : av) (r : reg) (g : Z -> list Z -> Z) (srcs : list reg) : list (option Z) :=
  if kept r then match known v srcs with
                 | Some l => [Some (g j l)]
                 | None => if inr r brs then [Some 0; Some 1] else [None] end
  else [None].
Definition a_fulls (b : bool) : list aitem := if b then [AFull] else [].
Definition mons (q : mq) (l : list aitem) : mq := fold_left (step M) l q.

Definition succ (j : Z) (s : ast) (i : instr) : list ast :=
  let k := s_pc s in let t := s_t s in let q := s_q s in let v := s_v s in
  let t' := t_step M i t in
  match i with
  | Lab _ => [mkast (S k) t' q v]
  | ClrexIf _ => [mkast (S k) t' q v]
  | Fence f => [mkast (S k) t' (mons q [AF f]) v]
  | Ld _ _ ac r _ _ => [mkast (S k) t' (mons q [AE false (r_acc M ac) false]) (put keep v r None)]
  | LL _ _ ac r _ => [mkast (S k) t' (mons q [AE false (r_acc M ac) false]) (put keep v r None)]
  | LLp _ _ ac r1 r2 _ => [mkast (S k) t' (mons q [AE false (r_acc M ac) false]) (put keep (put keep v r1 None) r2 None)]
  | St _ ac _ _ _ => [mkast (S k) t' (mons q [AE true (w_acc M ac) false]) v]
  | SC _ ac rst okv failv _ _ | SCp _ ac rst okv failv _ _ _ =>
      [mkast (S k) t' (mons q (a_fulls (m_scfull M ac) ++ [AE true (w_acc M ac) (ll t)] ++ a_fulls (m_scfull M ac)))
             (put keep v rst (if kept rst then Some okv else None));
       mkast (S k) t' q (put keep v rst (if kept rst then Some (failv j) else None))]
  | Rmw _ ac _ _ outs =>
      let fu := a_fulls (m_rmwfull M ac) in
      let rd_ := if reads outs then [AE false (r_acc M ac) false] else [] in
      let w := mkast (S k) t' (mons q (fu ++ rd_ ++ [AE true (w_acc M ac) (reads outs)] ++ fu)) (match zr with Some (r, x, _) => put keep none r (if kept r then Some x else None) | None => none end) in
      let n := mkast (S k) t' (mons q (fu ++ rd_ ++ [] ++ fu)) (match zr with Some (r, _, y) => put keep none r (if kept r then Some y else None) | None => none end) in
      match wm with Some true => [w] | Some false => [n] | None => [w; n] end
  | Op r g srcs => map (fun x => mkast (S k) t' q (put keep v r x)) (op_vals j v r g srcs)
  | Op2 r1 r2 g srcs =>
      map (fun x => mkast (S k) t' q (put keep (put keep v r1 None) r2 x)) (if kept r2 && inr r2 brs then [Some 0; Some 1] else [None])
  | Br c srcs l =>
      let q' := mons q [ACtl (existsb (fun r => inr r (ta t)) srcs)] in
      let yes := match target p k l with Some d => [mkast d t' q' v] | None => [] end in
      let no := [mkast (S k) t' q' v] in
      match known v srcs with Some vs => if c vs then yes else no | None => yes ++ no end
  | Jmp l => match target p k l with Some d => [mkast d t' q v] | None => [] end
  end.
Definition succs (j : Z) (s : ast) : list ast := match nth_error p (s_pc s) with Some i => succ j s i | None => [] end.

Definition mem_st (s : ast) (V : list ast) : bool := existsb (ast_beq s) V.
Definition closed (j : Z) (V : list ast) : bool := forallb (fun s => forallb (fun s' => mem_st s' V) (succs j s)) V.
Fixpoint explore (fuel : nat) (todo V : list ast) : list ast :=
  match fuel with
  | O => V
  | S n => match todo with
           | [] => V
           | s :: todo' => if mem_st s V then explore n todo' V else explore n (succs 0 s ++ todo') (s :: V)
           end
  end.
Definition init : ast := mkast 0 tn0 mq0 none.
Definition reach : list ast := explore 3000 [init] [].
Definition check (P : mq -> av -> bool) (j : Z) : bool :=
  mem_st init reach && closed j reach && forallb (fun s => if Nat.eqb (s_pc s) (length p) then P (s_q s) (s_v s) else true) reach.

(* ---- soundness ---- *)
Definition agree (v : av) (f : regs) : Prop := forall r x, look keep v r = Some x -> f r = x.
(* operations writing a register of [brs] give 0 or 1 *)
Definition brs_ok : Prop := Forall (fun i => match i with
  | Op r g _ => inr r brs = true -> forall j l, g j l = 0 \/ g j l = 1
  | Op2 _ r g _ => inr r brs = true -> forall j l, snd (g j l) = 0 \/ snd (g j l) = 1
  | Rmw _ _ _ w outs =>
      match wm with Some b => forall k v f, match w k v f with Some _ => b = true | None => b = false end | None => True end /\
      match zr with Some (r, x, y) => forall k j v f, upds f (outs k j v f) r = match w k v f with Some _ => x | None => y end | None => True end
  | _ => True end) p.

Lemma rbeq r s : reg_beq r s = true <-> r = s.
Proof. split; [apply internal_reg_dec_bl|intros ->; apply internal_reg_dec_lb; reflexivity]. Qed.
Lemma look_put ks : forall v r x r' y, look ks (put ks v r x) r' = Some y -> (r' = r /\ x = Some y) \/ (r' <> r /\ look ks v r' = Some y).
Proof.
  induction ks as [|k ks IH]; intros [|z v] r x r' y; cbn [put look]; intros H; try discriminate H.
  destruct (reg_beq r' k) eqn:E.
  - apply rbeq in E. subst k. destruct (reg_beq r r') eqn:E'; [apply rbeq in E'; left; auto|right]. split; auto. intros ->. 
    assert (reg_beq r r = true) by now apply rbeq. congruence.
  - destruct (IH _ _ _ _ _ H) as [A|A]; auto.
Qed.
Lemma agree_put v f r x y : agree v f -> (forall z, y = Some z -> z = x) -> agree (put keep v r y) (upd f r x).
Proof.
  intros A H r' z L. apply look_put in L. unfold upd. destruct L as [[-> ->]|[N L]].
  - assert (reg_beq r r = true) as -> by now apply rbeq. symmetry. now apply H.
  - destruct (reg_beq r' r) eqn:E; [apply rbeq in E; contradiction|]. now apply A.
Qed.
Lemma look_none r x : look keep none r <> Some x.
Proof.
  unfold none. generalize keep. induction keep0 as [|k ks IH]; cbn; [discriminate|]. destruct (reg_beq r k); [discriminate|auto].
Qed.
Lemma agree_none f : agree none f.
Proof. intros r x H. exfalso. revert H. apply look_none. Qed.
Lemma known_agree v f : agree v f -> forall rs l, known v rs = Some l -> map f rs = l.
Proof.
  intros A. induction rs as [|r rs IH]; cbn; intros l H; [now injection H as <-|].
  destruct (look keep v r) eqn:E; [|discriminate H]. destruct (known v rs) eqn:E2; [|discriminate H]. injection H as <-. f_equal; auto.
Qed.
Lemma abs_fulls b : map abs (fulls b) = a_fulls b.
Proof. now destruct b. Qed.

(* one step *)
Lemma succ_sound s o i s' m' a : brs_ok -> nth_error p (pc s) = Some i -> s_pc a = pc s -> agree (s_v a) (rf s) ->
  exec e p i o s = Some (s', m') ->
  exists v, agree v (rf s') /\
    In (mkast (pc s') (t_step M i (s_t a)) (mons (s_q a) (map abs (emit M e i o s (s_t a)))) v) (succ (o_junk o) a i).
Proof.
  intros B Hi Hp A X. assert (In i p) as Ii by (eapply nth_error_In; eauto).
  unfold brs_ok in B. rewrite Forall_forall in B. specialize (B i Ii).
  destruct i; cbn [exec] in X; cbn [succ emit]; rewrite Hp.
  - injection X as <- <-. exists (s_v a). split; [exact A|left; reflexivity].
  - injection X as <- <-. exists (s_v a). split; [exact A|left; reflexivity].
  - injection X as <- <-. eexists. split; [|left; reflexivity]. apply agree_put; auto. intros z H; discriminate H.
  - injection X as <- <-. exists (s_v a). split; [exact A|left; reflexivity].
  - injection X as <- <-. eexists. split; [|left; reflexivity]. apply agree_put; auto. intros z H; discriminate H.
  - injection X as <- <-. eexists. split; [|left; reflexivity]. apply agree_put; [apply agree_put; auto|]; intros z H; discriminate H.
  - destruct (o_ok o && sc_may e (o_mem o) (rs s) (rf s rad) sz); injection X as <- <-.
    + eexists. split; [|left; cbn [pc]; rewrite !map_app, abs_fulls; reflexivity]. apply agree_put; auto. intros z H. destruct (kept rst); [now injection H|discriminate H].
    + eexists. split; [|right; left; reflexivity]. apply agree_put; auto. intros z H. destruct (kept rst); [now injection H|discriminate H].
  - destruct (o_ok o && scp_may e (o_mem o) (rs s) (rf s rad) sz); injection X as <- <-.
    + eexists. split; [|left; cbn [pc]; rewrite !map_app, abs_fulls; reflexivity]. apply agree_put; auto. intros z H. destruct (kept rst); [now injection H|discriminate H].
    + eexists. split; [|right; left; reflexivity]. apply agree_put; auto. intros z H. destruct (kept rst); [now injection H|discriminate H].
  - injection X as <- <-. exists (s_v a). split; [exact A|left; reflexivity].
  - injection X as <- <-. rewrite !map_app, !abs_fulls. destruct B as [Bw Bz].
    set (v := rd e (o_mem o) (rf s rad) sz) in *.
    set (vv := match zr with Some (r, x, y) => put keep none r (if kept r then Some (match wfun (o_ok o) v (rf s) with Some _ => x | None => y end) else None)
               | None => none end).
    assert (agree vv (upds (rf s) (outs (o_ok o) (o_junk o) v (rf s)))) as Av.
    { unfold vv. destruct zr as [[[r x] y]|]; [|apply agree_none]. intros r' z L. apply look_put in L. destruct L as [[-> L]|[N L]].
      - destruct (kept r); [|discriminate L]. injection L as <-. apply Bz.
      - exfalso. revert L. apply look_none. }
    exists vv. split; [exact Av|]. unfold vv. destruct wm as [b|].
    + specialize (Bw (o_ok o) v (rf s)). destruct (wfun _ _ _); subst b; left; cbn [pc]; destruct (reads outs), zr as [[[? ?] ?]|]; reflexivity.
    + destruct (wfun _ _ _); [left|right; left]; cbn [pc]; destruct (reads outs), zr as [[[? ?] ?]|]; reflexivity.
  - injection X as <- <-. unfold op_vals. destruct (kept rdst).
    + destruct (known (s_v a) srcs) as [l|] eqn:K.
      * eexists. split; [|left; reflexivity]. apply agree_put; auto. intros z H. injection H as <-. erewrite known_agree; eauto.
      * destruct (inr rdst brs) eqn:Ir; [|eexists; split; [|left; reflexivity]; apply agree_put; auto; intros z H; discriminate H].
        destruct (B eq_refl (o_junk o) (map (rf s) srcs)) as [E|E].
        -- exists (put keep (s_v a) rdst (Some 0)). split; [apply agree_put; auto; intros z H; now injection H as <-|left; reflexivity].
        -- exists (put keep (s_v a) rdst (Some 1)). split; [apply agree_put; auto; intros z H; now injection H as <-|right; left; reflexivity].
    + eexists. split; [|left; reflexivity]. apply agree_put; auto. intros z H; discriminate H.
  - destruct (f (o_junk o) (map (rf s) srcs)) as [v1 v2] eqn:Ef. injection X as <- <-.
    destruct (kept r2 && inr r2 brs) eqn:K.
    + apply andb_true_iff in K. destruct K as [_ K]. destruct (B K (o_junk o) (map (rf s) srcs)) as [E|E]; rewrite Ef in E; cbn [snd] in E; subst v2.
      * exists (put keep (put keep (s_v a) r1 None) r2 (Some 0)). split; [|left; reflexivity].
        apply agree_put; [apply agree_put; auto; intros z H; discriminate H|]. intros z H; now injection H as <-.
      * exists (put keep (put keep (s_v a) r1 None) r2 (Some 1)). split; [|right; left; reflexivity].
        apply agree_put; [apply agree_put; auto; intros z H; discriminate H|]. intros z H; now injection H as <-.
    + eexists. split; [|left; reflexivity]. apply agree_put; [apply agree_put; auto; intros z H; discriminate H|]. intros z H; discriminate H.
  - destruct (known (s_v a) srcs) as [vs|] eqn:K.
    + rewrite (known_agree _ _ A _ _ K) in X. destruct (c vs).
      * destruct (target p (pc s) l); [|discriminate X]. injection X as <- <-. exists (s_v a). split; [exact A|left; reflexivity].
      * injection X as <- <-. exists (s_v a). split; [exact A|left; reflexivity].
    + destruct (c (map (rf s) srcs)).
      * destruct (target p (pc s) l); [|discriminate X]. injection X as <- <-. exists (s_v a). split; [exact A|left; reflexivity].
      * injection X as <- <-. exists (s_v a). split; [exact A|]. apply in_or_app. right. left. reflexivity.
  - destruct (target p (pc s) l); [|discriminate X]. injection X as <- <-. exists (s_v a). split; [exact A|left; reflexivity].
Qed.

Lemma mem_st_in s V : mem_st s V = true -> In s V.
Proof. intros H. apply existsb_exists in H. destruct H as (x & I & E). apply ast_beq_eq in E. now subst. Qed.
Lemma closed_run V : brs_ok -> (forall j, closed j V = true) -> forall os s a its l sf,
  In a V -> s_pc a = pc s -> agree (s_v a) (rf s) -> s_q a = mon M (map abs its) ->
  irun M e p os s (s_t a) = Some (l, sf) ->
  exists b, In b V /\ s_pc b = pc sf /\ agree (s_v b) (rf sf) /\ s_q b = mon M (map abs (its ++ l)).
Proof.
  intros B C. induction os as [|o os IH]; intros s a its l sf Ia Hp Ag Hq R; cbn [irun] in R.
  - injection R as <- <-. exists a. rewrite app_nil_r. auto.
  - destruct (nth_error p (pc s)) as [i|] eqn:Hi; [|injection R as <- <-; exists a; rewrite app_nil_r; auto].
    destruct (exec e p i o s) as [[s' m']|] eqn:X; [|discriminate R].
    destruct (succ_sound s o i s' m' a B Hi Hp Ag X) as (v & Ag' & Is).
    pose proof (C (o_junk o)) as Cj. unfold closed in Cj. rewrite forallb_forall in Cj. specialize (Cj a Ia). rewrite forallb_forall in Cj.
    unfold succs in Cj. rewrite Hp, Hi in Cj. specialize (Cj _ Is). apply mem_st_in in Cj.
    destruct (irun M e p os s' (t_step M i (s_t a))) as [[l' sf']|] eqn:R'; [|discriminate R]. injection R as <- <-.
    destruct (IH s' _ (its ++ emit M e i o s (s_t a)) l' sf' Cj eq_refl Ag') as (b & Ib & H1 & H2 & H3); auto.
    + cbn [s_q]. rewrite Hq. unfold mon, mons. now rewrite map_app, fold_left_app.
    + exists b. rewrite app_assoc. auto.
Qed.
Lemma check_sound P : brs_ok -> (forall j, check P j = true) -> forall os s0 l sf,
  pc s0 = O -> irun M e p os s0 tn0 = Some (l, sf) -> at_exit p sf ->
  exists v, agree v (rf sf) /\ P (mon M (map abs l)) v = true.
Proof.
  intros B C os s0 l sf P0 R E. revert C. unfold check. generalize reach as V. intros V C.
  assert (mem_st init V = true /\ (forall j, closed j V = true) /\
     forallb (fun s => if Nat.eqb (s_pc s) (length p) then P (s_q s) (s_v s) else true) V = true) as (H1 & H2 & H3).
  { assert (forall j, mem_st init V = true /\ closed j V = true /\
     forallb (fun s => if Nat.eqb (s_pc s) (length p) then P (s_q s) (s_v s) else true) V = true) as H.
    { intros j. specialize (C j). apply andb_true_iff in C. destruct C as [C C3]. apply andb_true_iff in C. tauto. }
    split; [apply (H 0)|]. split; [intros j; apply (H j)|apply (H 0)]. }
  apply mem_st_in in H1.
  destruct (closed_run V B H2 os s0 init [] l sf H1) as (b & Ib & Hp & Ag & Hq); auto.
  - apply agree_none.
  - exists (s_v b). split; auto. rewrite forallb_forall in H3. specialize (H3 b Ib). rewrite Hp, E, Nat.eqb_refl in H3. cbn [app] in Hq. now rewrite <- Hq.
Qed.
End K.
