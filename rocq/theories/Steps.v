(* L2: runs of a block with the information which steps read and which wrote shared memory, and the strengthening of [atomic_fn] that
   ties the linearization point to the accesses of the block.  Specification vocabulary; nothing here mentions a particular program. *)
From Verif Require Export Spec.

(* does the atomic instruction read memory?  One that writes no register but flags (whether or not a comparison with memory succeeds) is a plain (16-byte) store, or an exchange whose old
   value is discarded; nothing is claimed about the read of the latter *)
Definition isflag (r : reg) : bool := match r with FZ | FC | CCR => true | _ => false end.
Definition reads (outs : bool -> Z -> Z -> regs -> list (reg * Z)) : bool :=
  existsb (fun rv => negb (isflag (fst rv))) (outs true 0 0 (fun _ => 0) ++ outs true 0 1 (fun _ => 0)).
(* does the instruction read shared memory? *)
Definition reads_i (i : instr) : bool :=
  match i with Ld _ _ _ _ _ _ | LL _ _ _ _ _ | LLp _ _ _ _ _ _ => true | Rmw _ _ _ _ outs => reads outs | _ => false end.
(* does the instruction write shared memory (in this state)? *)
Definition wrote (e : endian) (i : instr) (o : oracle) (s : tst) : bool :=
  match i with
  | St _ _ _ _ _ => true
  | SC sz _ _ _ _ _ ra => o_ok o && sc_may e (o_mem o) (rs s) (rf s ra) sz
  | SCp sz _ _ _ _ _ _ ra => o_ok o && scp_may e (o_mem o) (rs s) (rf s ra) sz
  | Rmw sz _ ra wfun _ => match wfun (o_ok o) (rd e (o_mem o) (rf s ra) sz) (rf s) with Some _ => true | None => false end
  | _ => false
  end.
Lemma wrote_no e p i o s s' m' : exec e p i o s = Some (s', m') -> wrote e i o s = false -> m' = o_mem o.
Proof.
  intros X W. destruct i; cbn [exec wrote] in *; try discriminate W; rewrite ?W in X;
  repeat match type of X with (if ?b then _ else _) = _ => destruct b | match ?x with Some _ => _ | None => _ end = _ => destruct x | (let '(_, _) := ?x in _) = _ => destruct x end;
  try discriminate X; try (injection X as <- <-; reflexivity).
  injection X as <- <-. destruct (wfun _ _ _); [discriminate W|reflexivity].
Qed.

Lemma exec_wf e p i o s s' m' : wf_mem (o_mem o) -> exec e p i o s = Some (s', m') -> wf_mem m'.
Proof.
  intros H E. destruct i; cbn [exec] in E;
  repeat match type of E with context [match ?x with _ => _ end] => destruct x; try discriminate E end;
  injection E as <- <-; auto using wf_wr.
Qed.
(* one own step: memory before, memory after, does it read, did it write *)
Record xstep := mkx { xm : mem; xm' : mem; xrd : bool; xwr : bool }.
Definition step_of (e : endian) (i : instr) (o : oracle) (s : tst) (m' : mem) : xstep := mkx (o_mem o) m' (reads_i i) (wrote e i o s).
Fixpoint xrun (e : endian) (p : list instr) (os : list oracle) (s : tst) : option (list xstep * tst) :=
  match os with
  | [] => Some ([], s)
  | o :: os' =>
    match nth_error p (pc s) with
    | None => Some ([], s)
    | Some i =>
      match exec e p i o s with
      | None => None
      | Some (s', m') =>
        match xrun e p os' s' with
        | Some (t, sf) => Some (step_of e i o s m' :: t, sf)
        | None => None
        end
      end
    end
  end.
Definition plain_step (x : xstep) : mem * mem := (xm x, xm' x).
Lemma xrun_run e p os s : run e p os s = match xrun e p os s with Some (t, sf) => Ran (map plain_step t) sf | None => Stuck end.
Proof.
  revert s. induction os as [|o os IH]; intros s; cbn [run xrun]; [reflexivity|]. destruct (nth_error p (pc s)) as [i|]; [|reflexivity].
  destruct (exec e p i o s) as [[s' m']|]; [|reflexivity]. rewrite IH. destruct (xrun e p os s') as [[t sf]|]; reflexivity.
Qed.

Definition no_write (x : xstep) : Prop := xwr x = false /\ xm' x = xm x.
Definition no_access (x : xstep) : Prop := no_write x /\ xrd x = false.
(* one step of the run is the operation: it reads or writes, no step before it writes, and no step after it reads or writes *)
Definition xlin {A} (spec : mem -> mem -> A -> Prop) (t : list xstep) (r : A) : Prop :=
  exists t1 x t2, t = t1 ++ x :: t2 /\ Forall no_write t1 /\ Forall no_access t2 /\ (xrd x || xwr x)%bool = true /\ spec (xm x) (xm' x) r.
Definition xpending {A} (spec : mem -> mem -> A -> Prop) (t : list xstep) : Prop := Forall no_write t \/ exists r, xlin spec t r.
Definition atomic_fx {A} (e : endian) (f : fn A) (spec : mem -> mem -> A -> Prop) : Prop :=
  forall os s0, wf_oracles os -> pc s0 = O -> f_in f (rf s0) ->
  match xrun e (f_prog f) os s0 with
  | None => False
  | Some (t, sf) => (at_exit (f_prog f) sf -> exists r, f_out f (rf sf) = Some r /\ xlin spec t r) /\ xpending spec t
  end.

Lemma no_write_silent t : Forall no_write t -> Forall silent (map plain_step t).
Proof. induction 1 as [|x t [_ H] _ IH]; constructor; auto. unfold silent. cbn. rewrite H. apply meq_refl. Qed.
Lemma no_access_write t : Forall no_access t -> Forall no_write t.
Proof. intros H. eapply Forall_impl; [|exact H]. intros x [X _]. exact X. Qed.
Lemma xlin_lin {A} (spec : mem -> mem -> A -> Prop) t r : xlin spec t r -> lin spec (map plain_step t) r.
Proof.
  intros (t1 & x & t2 & -> & H1 & H2 & _ & S). exists (map plain_step t1), (xm x), (xm' x), (map plain_step t2). rewrite map_app. cbn [map].
  split; [reflexivity|]. split; [now apply no_write_silent|]. split; [|exact S]. now apply no_write_silent, no_access_write.
Qed.
Lemma fx_atomic {A} e (f : fn A) spec : atomic_fx e f spec -> atomic_fn e f spec.
Proof.
  intros H os s0 Hw Hp Hi. specialize (H os s0 Hw Hp Hi). rewrite xrun_run. destruct (xrun e (f_prog f) os s0) as [[t sf]|]; [|exact H].
  destruct H as [H1 H2]. split.
  - intros E. destruct (H1 E) as (r & Hr & L). exists r. split; auto. now apply xlin_lin.
  - destruct H2 as [H2|[r H2]]; [left; now apply no_write_silent|right; exists r; now apply xlin_lin].
Qed.
