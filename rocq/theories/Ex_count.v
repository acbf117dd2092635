(* C45: two threads draw tickets with Relaxed compare_exchange: executions that meet the hypotheses, with their final contents. *)
From Verif Require Import Ex_lock Ex_rseq Ex_graph Ex_sc Prop_sc Examples Order Serial Interleave CellSeq Prop_hb Graph Prop_cell Prop_count.
From Verif Require Import Arch_riscv Arch_powerpc Arch_aarch64.

Section F.
Context (T : arch) (thr : nat -> list seg) (m0 : mem).
Notation G := (serial thr m0).
Lemma runs_last n : forall t m m', run_threads thr m0 n t m = Some m' -> mem_at thr m0 m (t, O) -> mem_at thr m0 m' ((t + n)%nat, O).
Proof.
  induction n as [|n IH]; intros t m m' R H; [cbn in R; injection R as <-; now rewrite Nat.add_0_r|]. cbn [run_threads] in R. destruct (run_items (items (plain_graph thr m0) t) m false) as [m1|] eqn:R1; [|discriminate R].
  replace (t + S n)%nat with (S t + n)%nat by lia. apply (IH (S t) m1 m' R). destruct (run_ok thr m0 t (items G t) [] m false m1 eq_refl R1 H) as [H1 _]. clear - H1. intros b.
  assert (forall w, writes_b G w b -> lexlt w (S t, O) -> lexlt w (t, length (items G t))) as K.
  { intros [tw kw] (v & V & _) L. unfold lexlt in *. cbn [fst snd] in *. destruct (Nat.eq_dec tw t) as [->|]; [right; split; [reflexivity|exact (at_lt _ _ _ V)]|left; lia]. }
  destruct (H1 b) as [(w & v & V & W & C & L & U & E)|[U E]].
  - left. exists w, v. repeat (split; [assumption|]). split; [unfold lexlt in *; cbn [fst snd] in *; lia|]. split; [|exact E]. intros w' W' L'. exact (U w' W' (K w' W' L')).
  - right. split; [|exact E]. intros w W L. exact (U w W (K w W L)).
Qed.
Lemma final_run n m : (forall t, (n <= t)%nat -> thr t = []) -> run_threads thr m0 n 0 m0 = Some m -> forall b, final G b (m b).
Proof.
  intros Em R b. assert (mem_at thr m0 m0 (O, O)) as M0 by (intros x; right; split; [intros w _ L; unfold lexlt in L; cbn in L; lia|reflexivity]).
  assert (forall w x, writes_b G w x -> lexlt w (n, O)) as Bt.
  { intros [t k] x (v & V & _). unfold lexlt. cbn [fst snd]. left. destruct (Nat.lt_ge_cases t n) as [Q|Q]; [exact Q|]. exfalso. unfold ev_at, at_, items in V. cbn [fst snd] in V.
    change (g_thr G t) with (thr t) in V. rewrite (Em t Q) in V. destruct k; discriminate V. }
  destruct (runs_last n 0 m0 m R M0 b) as [(w & v & V & W & C & L & U & E)|[U E]]; cbn [Nat.add] in *.
  - right. exists w, v. repeat (split; [assumption|]). split; [|now symmetry]. intros w' (_ & Ww & Lw). exact (U w' Ww (Bt w' b Ww) Lw).
  - left. split; [exact E|]. intros w Ww. exact (U w Ww (Bt w b Ww)).
Qed.
End F.

(* thread 0: load = 0, compare_exchange(0, 1) = Ok(0);  thread 1: compare_exchange(0, 1) = Err(1), compare_exchange_weak(1, 2) = Ok(1) *)
Definition tk_ld := OLoad 4 Relaxed 0x2000.
Definition tk_01 := OCas 4 Relaxed Relaxed 0x2000 0 1.
Definition tk_12 := OCasWeak 4 Relaxed Relaxed 0x2000 1 2.
Definition tk_regs (o v : Z) : regs := fun r => match r with Dst | Src => 0x2000 | Old => o | New => v | _ => 0 end.
Section K.
Context (T : arch).
Definition tk1 := its_of T tk_ld st_os (tk_regs 0 0).
Definition tk2 := its_of T tk_01 st_os (tk_regs 0 1).
Definition tk3 := its_of T tk_01 (mem_os (t_e T) 1) (tk_regs 0 1).
Definition tk4 := its_of T tk_12 (mem_os (t_e T) 1) (tk_regs 1 2).
Definition tk_thr (t : nat) : list seg := match t with
  | O => [Call tk_ld (RVal 0) tk1; Call tk_01 (RCas 0 true) tk2]
  | S O => [Call tk_01 (RCas 1 false) tk3; Call tk_12 (RCas 1 true) tk4]
  | _ => [] end.
Definition tkg : graph := serial tk_thr (fun _ => 0).
Definition tk_met : Prop := t_ie T = None /\ t_wf T /\ execution T tkg /\ cells_client tkg /\ (forall t, (2 <= t)%nat -> g_thr tkg t = []) /\
  (forall t cr, In cr (on_cell 0x2000 4 (calls (g_thr tkg t))) -> cas_only cr /\ by_one 4 cr) /\
  total won (fun t => on_cell 0x2000 4 (calls (g_thr tkg t))) 2 = 2 /\ total gain (fun t => on_cell 0x2000 4 (calls (g_thr tkg t))) 2 = 2 /\
  exists m, (forall b, final tkg b (m b)) /\ rd (t_e T) m 0x2000 4 = 2.
Lemma tk_by : t_wf T -> t_ie T = None -> call_items T tk_ld tk1 (RVal 0) -> call_items T tk_01 tk2 (RCas 0 true) -> call_items T tk_01 tk3 (RCas 1 false) -> call_items T tk_12 tk4 (RCas 1 true) ->
  match run_threads tk_thr (fun _ => 0) 2 0 (fun _ => 0) with Some m => rd (t_e T) m 0x2000 4 =? 2 | None => false end = true -> tk_met.
Proof.
  intros W Ie C1 C2 C3 C4 Run. destruct (run_threads tk_thr (fun _ => 0) 2 0 (fun _ => 0)) as [m|] eqn:R; [|discriminate Run].
  assert (forall t q c r its, call_at tkg t q c r its -> call_items T c its r /\ op_cell c = (0x2000, 4)) as Ca.
  { intros t q c r its H. unfold call_at in H. destruct t as [|[|t]], q as [|[|q]]; cbn in H; try discriminate H; try (destruct q; discriminate H); injection H as <- <- <-; split; (assumption || reflexivity). }
  assert (forall t, (2 <= t)%nat -> tk_thr t = []) as Em by (intros [|[|t]] L; try lia; reflexivity). split; [exact Ie|]. split; [exact W|].
  split; [|split; [|split; [exact Em|split; [|split; [reflexivity|split; [reflexivity|]]]]]].
  - apply interleaving_execution with lexlt. apply (serial_interleaving T tk_thr (fun _ => 0) 2); [intros t q c r its H; exact (proj1 (Ca _ _ _ _ _ H))|exact Em|congruence].
  - constructor.
    + intros t q its v b t' q' c r its' H. destruct t as [|[|t]], q as [|[|q]]; cbn in H; try discriminate H; destruct q; discriminate H.
    + intros t q c r its t' q' c' r' its' H H'. left. destruct (Ca _ _ _ _ _ H) as [_ ->], (Ca _ _ _ _ _ H') as [_ ->]. reflexivity.
    + intros t q c r its H. destruct (Ca _ _ _ _ _ H) as [_ ->]. cbn. unfold an_integer. auto.
    + exists 2%nat. exact Em.
  - intros t cr I. destruct t as [|[|t]]; cbn in I; [| |destruct I]; destruct I as [<-|[<-|[]]]; split; (exact Logic.I || reflexivity).
  - exists m. split; [exact (final_run tk_thr (fun _ => 0) 2 m Em R)|]. now apply Z.eqb_eq.
Qed.
End K.
Ltac tk_meet := apply tk_by; [|reflexivity|item|item|item|item|vm_compute; reflexivity].
Example tk_riscv : tk_met (Riscv rv64).
Proof. tk_meet. right; split; [reflexivity|left; reflexivity]. Qed.
Example tk_powerpc : tk_met (Powerpc pp64).
Proof. tk_meet. right. reflexivity. Qed.
Example tk_aarch64 : tk_met (Aarch64 aa0).
Proof. tk_meet. exact Logic.I. Qed.
(* a third thread that draws ticket 1 once more cannot be *)
Example tk_no_third : forall G, execution (Riscv rv64) G -> cells_client G -> (forall t, (3 <= t)%nat -> g_thr G t = []) -> (forall x, g_init G x = 0) ->
  (forall t, on_cell 0x2000 4 (calls (g_thr G t)) = match t with O => [(tk_01, RCas 0 true)] | S O | S (S O) => [(tk_12, RCas 1 true)] | _ => [] end) -> False.
Proof.
  intros G X C H3 I0 Hc. assert (t_wf (Riscv rv64)) as W by (right; split; [reflexivity|left; reflexivity]).
  assert (forall x, 0 <= g_init G x < 256) as Wm by (intros x; rewrite I0; lia).
  destruct (C45_no_ticket_twice (Riscv rv64) G 0x2000 4 3 eq_refl W X C H3 Wm) with (t := 1%nat) (i := O) (t' := 2%nat) (i' := O) (cr := (tk_12, RCas 1 true)) (cr' := (tk_12, RCas 1 true)) (x := 1) (y := 2) (y' := 2) as [Q _];
    [|cbn [total]; rewrite !Hc; vm_compute; congruence|now rewrite Hc|now rewrite Hc|reflexivity|reflexivity|discriminate Q].
  intros t cr J. rewrite Hc in J. destruct t as [|[|[|t]]]; cbn in J; try (destruct J; fail); destruct J as [<-|[]]; reflexivity.
Qed.
