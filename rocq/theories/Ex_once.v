(* C47: two threads initialize a value once: executions that meet the hypotheses. *)
From Verif Require Import Ex_lock Ex_rseq Ex_graph Ex_sc Ex_count Prop_sc Examples Order Serial Interleave CellSeq Prop_hb Graph Prop_cell Prop_count Prop_once.
From Verif Require Import Arch_riscv Arch_powerpc Arch_aarch64.

(* 0: to do, 1: somebody does it, 2: done. Thread 0: compare_exchange(0, 1, Relaxed) = Ok(0), writes the data, store(2, Release);
   thread 1: compare_exchange(0, 1, Relaxed, Acquire) = Err(2), reads the data. *)
Definition on_01 := OCas 4 Relaxed Relaxed 0x2000 0 1.
Definition on_st := OStore 4 Release 0x2000 2.
Definition on_no := OCas 4 Relaxed Acquire 0x2000 0 1.
Section K.
Context (T : arch).
Definition on1 := its_of T on_01 st_os (tk_regs 0 1).
Definition on2 := its_of T on_st st_os (fun r => match r with Dst => 0x2000 | Val => 2 | _ => 0 end).
Definition on3 := its_of T on_no (mem_os (t_e T) 2) (tk_regs 0 1).
Definition on_thr (t : nat) : list seg := match t with
  | O => [Call on_01 (RCas 0 true) on1; Code [IE (data true)]; Call on_st RUnit on2]
  | S O => [Call on_no (RCas 2 false) on3; Code [IE (data false)]]
  | _ => [] end.
Definition ong : graph := serial on_thr (fun _ => 0).
(* the hypotheses of C47_once, with the other calls of both threads *)
Definition on_met : Prop := t_ie T = None /\ t_wf T /\ execution T ong /\ cells_client ong /\
  (forall t cr, In cr (on_cell 0x2000 4 (calls (g_thr ong t))) -> ~ puts 0 cr) /\
  (forall t cr, In cr (on_cell 0x2000 4 (calls (g_thr ong t))) -> puts 2 cr -> exists cr', In cr' (on_cell 0x2000 4 (calls (g_thr ong t))) /\ takes 0 cr') /\
  nth_error (on_cell 0x2000 4 (calls (g_thr ong 0))) 0 = Some (on_01, RCas 0 true) /\ takes 0 (on_01, RCas 0 true) /\ rd (t_e T) (g_init ong) 0x2000 4 <> 2 /\
  call_at ong 1 0 on_no (RCas 2 false) on3 /\ op_cell on_no = (0x2000, 4) /\ finds 2 (on_no, RCas 2 false) /\ acquires (eff on_no (RCas 2 false)) = true /\
  exists d e, (forall q c r its, call_at ong 0 q c r its -> op_cell c = (0x2000, 4) -> puts 2 (c, r) -> releases (weff c) = true /\ before ong d 0 q) /\ after ong e 1 0 /\
    solid ong d /\ solid ong e /\ forall b, 0x1000 <= b < 0x1004 -> writes_b ong d b /\ reads_b ong e b.
Lemma on_by : t_wf T -> t_ie T = None -> call_items T on_01 on1 (RCas 0 true) -> call_items T on_st on2 RUnit -> call_items T on_no on3 (RCas 2 false) ->
  match run_threads on_thr (fun _ => 0) 2 0 (fun _ => 0) with Some m => true | None => false end = true -> rd (t_e T) (fun _ => 0) 0x2000 4 = 0 -> on_met.
Proof.
  intros W Ie C1 C2 C3 Run R0. destruct (run_threads on_thr (fun _ => 0) 2 0 (fun _ => 0)) as [m|] eqn:R; [|discriminate Run].
  assert (forall t q c r its, call_at ong t q c r its -> call_items T c its r /\ op_cell c = (0x2000, 4)) as Ca.
  { intros t q c r its H. unfold call_at in H. destruct t as [|[|t]], q as [|[|[|q]]]; cbn in H; try discriminate H; try (destruct q; discriminate H); injection H as <- <- <-; split; (assumption || reflexivity). }
  assert (forall t, (2 <= t)%nat -> on_thr t = []) as Em by (intros [|[|t]] L; try lia; reflexivity). split; [exact Ie|]. split; [exact W|].
  split; [|split; [|split; [|split; [|split; [reflexivity|split; [reflexivity|split; [cbn [g_init ong serial]|repeat (split; [reflexivity|])]]]]]]].
  - apply interleaving_execution with lexlt. apply (serial_interleaving T on_thr (fun _ => 0) 2); [intros t q c r its H; exact (proj1 (Ca _ _ _ _ _ H))|exact Em|congruence].
  - constructor.
    + intros t q its v b t' q' c r its' H I Wv Cv H'. destruct (Ca _ _ _ _ _ H') as [_ ->]. cbn [fst snd]. assert (v = data true \/ v = data false) as [->| ->].
      { destruct t as [|[|t]], q as [|[|[|q]]]; cbn in H; try discriminate H; try (destruct q; discriminate H); injection H as <-; destruct I as [I|[]]; injection I as <-; auto. }
      all: unfold covers in Cv; cbn in Cv; lia.
    + intros t q c r its t' q' c' r' its' H H'. left. destruct (Ca _ _ _ _ _ H) as [_ ->], (Ca _ _ _ _ _ H') as [_ ->]. reflexivity.
    + intros t q c r its H. destruct (Ca _ _ _ _ _ H) as [_ ->]. cbn. unfold an_integer. auto.
    + exists 2%nat. exact Em.
  - intros t cr I. destruct t as [|[|t]]; cbn in I; [| |destruct I]; [destruct I as [<-|[<-|[]]]|destruct I as [<-|[]]]; cbn; (lia || tauto).
  - intros t cr I Pu. destruct t as [|[|t]]; cbn in I; [| |destruct I].
    + exists (on_01, RCas 0 true). split; [left; reflexivity|reflexivity].
    + destruct I as [<-|[]]. contradiction Pu.
  - change (rd (t_e T) (fun _ : Z => 0) 0x2000 4 <> 2). rewrite R0. discriminate.
  - exists (O, base ong 0 1), (1%nat, base ong 1 1). assert (ev_at ong (O, base ong 0 1) (data true)) as E1.
    { unfold ev_at, at_, items, base, flat. cbn [fst snd]. change (g_thr ong 0) with (on_thr 0). cbn [on_thr firstn map concat seg_its app]. rewrite !app_nil_r. rewrite nth_error_app2 by lia. now rewrite Nat.sub_diag. }
    assert (ev_at ong (1%nat, base ong 1 1) (data false)) as E2.
    { unfold ev_at, at_, items, base, flat. cbn [fst snd]. change (g_thr ong 1) with (on_thr 1). cbn [on_thr firstn map concat seg_its app]. rewrite !app_nil_r. rewrite nth_error_app2 by lia. now rewrite Nat.sub_diag. }
    split.
    { intros q c r its H _ Pu. unfold call_at in H. destruct q as [|[|[|q]]]; cbn in H; try discriminate H; try (destruct q; discriminate H); injection H as <- <- <-; [cbn in Pu; lia|].
      split; [reflexivity|]. split; [reflexivity|]. unfold base, flat. cbn [snd]. change (g_thr ong 0) with (on_thr 0). cbn [on_thr firstn map concat seg_its]. rewrite !app_length. cbn [length]. lia. }
    split; [split; [reflexivity|cbn [snd]; lia]|].
    split; [exists (data true); split; [exact E1|left; reflexivity]|]. split; [exists (data false); split; [exact E2|right; left; reflexivity]|].
    intros b Hb. split; [exists (data true)|exists (data false)]; (split; [assumption|]; split; [reflexivity|unfold covers; cbn; lia]).
Qed.
End K.
Ltac on_meet := apply on_by; [|reflexivity|item|item|item|vm_compute; reflexivity|vm_compute; reflexivity].
Example on_riscv : on_met (Riscv rv64).
Proof. on_meet. right; split; [reflexivity|left; reflexivity]. Qed.
Example on_powerpc : on_met (Powerpc pp64).
Proof. on_meet. right. reflexivity. Qed.
Example on_aarch64 : on_met (Aarch64 aa0).
Proof. on_meet. exact Logic.I. Qed.
