(* C46: two threads share a value with a count: executions that meet the hypotheses. *)
From Verif Require Import Ex_lock Ex_rseq Ex_graph Ex_sc Ex_count Prop_sc Examples Order Serial Interleave CellSeq Prop_hb Graph Prop_cell Prop_count Prop_arc.
From Verif Require Import Arch_riscv Arch_powerpc Arch_aarch64.

(* The count is 1 at first. Thread 0: writes the data, compare_exchange_weak(1, 2, Relaxed) = Ok(1), compare_exchange(2, 1, Release) = Ok(2);
   thread 1: compare_exchange(1, 0, AcqRel) = Ok(1), reads the data, load(Acquire) = 0. *)
Definition ar_up := OCasWeak 4 Relaxed Relaxed 0x2000 1 2.
Definition ar_dn := OCas 4 Release Relaxed 0x2000 2 1.
Definition ar_0 := OCas 4 AcqRel Relaxed 0x2000 1 0.
Definition ar_ld := OLoad 4 Acquire 0x2000.
Section K.
Context (T : arch).
Definition ar_m0 : mem := fun b => if b =? match t_e T with LE => 0x2000 | BE => 0x2003 end then 1 else 0.
Definition ar1 := its_of T ar_up (mem_os (t_e T) 1) (tk_regs 1 2).
Definition ar2 := its_of T ar_dn (mem_os (t_e T) 2) (tk_regs 2 1).
Definition ar3 := its_of T ar_0 (mem_os (t_e T) 1) (tk_regs 1 0).
Definition ar4 := its_of T ar_ld (mem_os (t_e T) 0) (tk_regs 0 0).
Definition ar_thr (t : nat) : list seg := match t with
  | O => [Code [IE (data true)]; Call ar_up (RCas 1 true) ar1; Call ar_dn (RCas 2 true) ar2]
  | S O => [Call ar_0 (RCas 1 true) ar3; Code [IE (data false)]; Call ar_ld (RVal 0) ar4]
  | _ => [] end.
Definition arg : graph := serial ar_thr ar_m0.
(* the hypotheses of C46_no_use_after_free, and of C46_once apart from its second call *)
Definition ar_met : Prop := t_ie T = None /\ t_wf T /\ execution T arg /\ cells_client arg /\ counted arg 0x2000 4 /\
  call_at arg 0 2 ar_dn (RCas 2 true) ar2 /\ call_at arg 1 0 ar_0 (RCas 1 true) ar3 /\ op_cell ar_dn = (0x2000, 4) /\ op_cell ar_0 = (0x2000, 4) /\
  wins (ar_dn, RCas 2 true) = Some (2, 1) /\ releases (weff ar_dn) = true /\ sees_zero (ar_0, RCas 1 true) /\ wins (ar_0, RCas 1 true) = Some (1, 0) /\
  acquires (eff ar_0 (RCas 1 true)) = true /\ (exists d e, before arg d 0 2 /\ after arg e 1 0 /\ solid arg d /\ solid arg e /\ ev_at arg d (data true) /\ ev_at arg e (data false) /\
    forall b, 0x1000 <= b < 0x1004 -> writes_b arg d b /\ reads_b arg e b).
Lemma ar_by : t_wf T -> t_ie T = None -> call_items T ar_up ar1 (RCas 1 true) -> call_items T ar_dn ar2 (RCas 2 true) -> call_items T ar_0 ar3 (RCas 1 true) -> call_items T ar_ld ar4 (RVal 0) ->
  match run_threads ar_thr ar_m0 2 0 ar_m0 with Some m => true | None => false end = true -> ar_met.
Proof.
  intros W Ie C1 C2 C3 C4 Run. destruct (run_threads ar_thr ar_m0 2 0 ar_m0) as [m|] eqn:R; [|discriminate Run].
  assert (forall t q c r its, call_at arg t q c r its -> call_items T c its r /\ op_cell c = (0x2000, 4)) as Ca.
  { intros t q c r its H. unfold call_at in H. destruct t as [|[|t]], q as [|[|[|q]]]; cbn in H; try discriminate H; try (destruct q; discriminate H); injection H as <- <- <-; split; (assumption || reflexivity). }
  assert (forall t, (2 <= t)%nat -> ar_thr t = []) as Em by (intros [|[|t]] L; try lia; reflexivity). split; [exact Ie|]. split; [exact W|].
  split; [|split; [|split; [|repeat (split; [reflexivity|])]]].
  - apply interleaving_execution with lexlt. apply (serial_interleaving T ar_thr ar_m0 2); [intros t q c r its H; exact (proj1 (Ca _ _ _ _ _ H))|exact Em|congruence].
  - constructor.
    + intros t q its v b t' q' c r its' H I Wv Cv H'. destruct (Ca _ _ _ _ _ H') as [_ ->]. cbn [fst snd]. assert (v = data true \/ v = data false) as [->| ->].
      { destruct t as [|[|t]], q as [|[|[|q]]]; cbn in H; try discriminate H; try (destruct q; discriminate H); injection H as <-; destruct I as [I|[]]; injection I as <-; auto. }
      all: unfold covers in Cv; cbn in Cv; lia.
    + intros t q c r its t' q' c' r' its' H H'. left. destruct (Ca _ _ _ _ _ H) as [_ ->], (Ca _ _ _ _ _ H') as [_ ->]. reflexivity.
    + intros t q c r its H. destruct (Ca _ _ _ _ _ H) as [_ ->]. cbn. unfold an_integer. auto.
    + exists 2%nat. exact Em.
  - constructor.
    + intros t cr I. destruct t as [|[|t]]; cbn in I; [| |destruct I]; destruct I as [<-|[<-|[]]]; exact Logic.I.
    + intros t cr x y I. destruct t as [|[|t]]; cbn in I; [| |destruct I]; destruct I as [<-|[<-|[]]]; cbn; intros Q; try discriminate Q; injection Q; congruence.
  - exists (O, O), (1%nat, base arg 1 1). assert (ev_at arg (O, O) (data true)) as E1 by reflexivity.
    assert (ev_at arg (1%nat, base arg 1 1) (data false)) as E2.
    { unfold ev_at, at_, items, base, flat. cbn [fst snd]. change (g_thr arg 1) with (ar_thr 1). cbn [ar_thr firstn map concat seg_its app]. rewrite !app_nil_r. rewrite nth_error_app2 by lia. now rewrite Nat.sub_diag. }
    split; [split; [reflexivity|unfold base; cbn; lia]|]. split; [split; [reflexivity|cbn [snd]; lia]|].
    split; [exists (data true); split; [exact E1|left; reflexivity]|]. split; [exists (data false); split; [exact E2|right; left; reflexivity]|].
    split; [exact E1|]. split; [exact E2|]. intros b Hb. split; [exists (data true)|exists (data false)]; (split; [assumption|]; split; [reflexivity|unfold covers; cbn; lia]).
Qed.
End K.
Ltac ar_meet := apply ar_by; [|reflexivity|item|item|item|item|vm_compute; reflexivity].
Example ar_riscv : ar_met (Riscv rv64).
Proof. ar_meet. right; split; [reflexivity|left; reflexivity]. Qed.
Example ar_powerpc : ar_met (Powerpc pp64).
Proof. ar_meet. right. reflexivity. Qed.
Example ar_aarch64 : ar_met (Aarch64 aa0).
Proof. ar_meet. exact Logic.I. Qed.
