(* C49: a writer and a reader: executions that meet the hypotheses. *)
From Verif Require Import Ex_lock Ex_rseq Ex_graph Ex_sc Ex_count Prop_lock Prop_sc Examples Order Serial Interleave CellSeq Prop_hb Graph Prop_cell Prop_count Prop_rwlock.
From Verif Require Import Arch_riscv Arch_powerpc Arch_aarch64.

(* 100: a writer. Thread 0: compare_exchange(0, 100, Acquire, Relaxed), writes the data, store(0, Release);
   thread 1: compare_exchange_weak(0, 1, Acquire, Relaxed), reads the data, compare_exchange(1, 0, Release, Relaxed). *)
Definition rw_wl := OCas 4 Acquire Relaxed 0x2000 0 100.
Definition rw_wu := OStore 4 Release 0x2000 0.
Definition rw_rl := OCasWeak 4 Acquire Relaxed 0x2000 0 1.
Definition rw_ru := OCas 4 Release Relaxed 0x2000 1 0.
Section K.
Context (T : arch).
Definition rw1 := its_of T rw_wl st_os (tk_regs 0 100).
Definition rw2 := its_of T rw_wu (mem_os (t_e T) 100) (fun r => match r with Dst => 0x2000 | _ => 0 end).
Definition rw3 := its_of T rw_rl st_os (tk_regs 0 1).
Definition rw4 := its_of T rw_ru (mem_os (t_e T) 1) (tk_regs 1 0).
Definition rw_thr (t : nat) : list seg := match t with
  | O => [Call rw_wl (RCas 0 true) rw1; Code [IE (data true)]; Call rw_wu RUnit rw2]
  | S O => [Call rw_rl (RCas 0 true) rw3; Code [IE (data false)]; Call rw_ru (RCas 1 true) rw4]
  | _ => [] end.
Definition rwg : graph := serial rw_thr (fun _ => 0).
(* the hypotheses of C49_consistent (and so of C49_exclusive), and an access inside each section *)
Definition rw_met : Prop := t_ie T = None /\ t_wf T /\ execution T rwg /\ cells_client rwg /\ rw_client T rwg 0x2000 4 100 /\
  section_of rwg 0x2000 4 100 Writing 0 0 2 /\ section_of rwg 0x2000 4 100 Reading 1 0 2 /\
  exists d e, inside rwg d 0 0 2 /\ inside rwg e 1 0 2 /\ solid rwg d /\ solid rwg e /\ forall b, 0x1000 <= b < 0x1004 -> writes_b rwg d b /\ reads_b rwg e b.
Lemma rw_by : t_wf T -> t_ie T = None -> call_items T rw_wl rw1 (RCas 0 true) -> call_items T rw_wu rw2 RUnit -> call_items T rw_rl rw3 (RCas 0 true) -> call_items T rw_ru rw4 (RCas 1 true) ->
  match run_threads rw_thr (fun _ => 0) 2 0 (fun _ => 0) with Some m => true | None => false end = true -> rd (t_e T) (fun _ => 0) 0x2000 4 = 0 -> rw_met.
Proof.
  intros W Ie C1 C2 C3 C4 Run R0. destruct (run_threads rw_thr (fun _ => 0) 2 0 (fun _ => 0)) as [m|] eqn:R; [|discriminate Run].
  assert (forall t q c r its, call_at rwg t q c r its -> call_items T c its r /\ op_cell c = (0x2000, 4)) as Ca.
  { intros t q c r its H. unfold call_at in H. destruct t as [|[|t]], q as [|[|[|q]]]; cbn in H; try discriminate H; try (destruct q; discriminate H); injection H as <- <- <-; split; (assumption || reflexivity). }
  assert (forall t, (2 <= t)%nat -> rw_thr t = []) as Em by (intros [|[|t]] L; try lia; reflexivity). split; [exact Ie|]. split; [exact W|].
  split; [|split; [|split; [|split; [|split]]]].
  - apply interleaving_execution with lexlt. apply (serial_interleaving T rw_thr (fun _ => 0) 2); [intros t q c r its H; exact (proj1 (Ca _ _ _ _ _ H))|exact Em|congruence].
  - constructor.
    + intros t q its v b t' q' c r its' H I Wv Cv H'. destruct (Ca _ _ _ _ _ H') as [_ ->]. cbn [fst snd]. assert (v = data true \/ v = data false) as [->| ->].
      { destruct t as [|[|t]], q as [|[|[|q]]]; cbn in H; try discriminate H; try (destruct q; discriminate H); injection H as <-; destruct I as [I|[]]; injection I as <-; auto. }
      all: unfold covers in Cv; cbn in Cv; lia.
    + intros t q c r its t' q' c' r' its' H H'. left. destruct (Ca _ _ _ _ _ H) as [_ ->], (Ca _ _ _ _ _ H') as [_ ->]. reflexivity.
    + intros t q c r its H. destruct (Ca _ _ _ _ _ H) as [_ ->]. cbn. unfold an_integer. auto.
    + exists 2%nat. exact Em.
  - constructor; [lia| | | | |exact R0].
    1-3: intros t c r; intros; destruct t as [|[|t]]; cbn in H; try contradiction H; destruct H as [H|[H|[]]]; injection H as <- <-; cbn in *; first [reflexivity|congruence|match goal with E : Some _ = Some _ |- _ => injection E as <- <-; lia end].
    + intros t. destruct t as [|[|t]]; cbn; discriminate.
  - exists rw_wl, (RCas 0 true), rw1, rw_wu, RUnit, rw2, (0, 100). do 4 (split; [reflexivity|]). split; [lia|]. split; [reflexivity|]. split; [split; reflexivity|]. split; [right; reflexivity|].
    intros q c r its L H. assert (q = 1%nat) as -> by lia. discriminate H.
  - exists rw_rl, (RCas 0 true), rw3, rw_ru, (RCas 1 true), rw4, (0, 1). do 4 (split; [reflexivity|]). split; [lia|]. split; [reflexivity|]. split; [cbn; lia|]. split; [exists 1; split; [lia|reflexivity]|].
    intros q c r its L H. assert (q = 1%nat) as -> by lia. discriminate H.
  - exists (O, base rwg 0 1), (1%nat, base rwg 1 1). assert (ev_at rwg (O, base rwg 0 1) (data true)) as E1.
    { unfold ev_at, at_, items, base, flat. cbn [fst snd]. change (g_thr rwg 0) with (rw_thr 0). cbn [rw_thr firstn map concat seg_its app]. rewrite !app_nil_r. rewrite nth_error_app2 by lia. now rewrite Nat.sub_diag. }
    assert (ev_at rwg (1%nat, base rwg 1 1) (data false)) as E2.
    { unfold ev_at, at_, items, base, flat. cbn [fst snd]. change (g_thr rwg 1) with (rw_thr 1). cbn [rw_thr firstn map concat seg_its app]. rewrite !app_nil_r. rewrite nth_error_app2 by lia. now rewrite Nat.sub_diag. }
    assert (forall t, (t < 2)%nat -> inside rwg (t, base rwg t 1) t 0 2) as Is.
    { intros t Lt. split; (split; [reflexivity|]); cbn [snd]; [lia|]. unfold base, flat. destruct t as [|[|t]]; [| |lia]; [change (g_thr rwg 0) with (rw_thr 0)|change (g_thr rwg 1) with (rw_thr 1)]; cbn [rw_thr firstn map concat seg_its]; rewrite !app_length; cbn [length]; lia. }
    split; [apply Is; lia|]. split; [apply Is; lia|].
    split; [exists (data true); split; [exact E1|left; reflexivity]|]. split; [exists (data false); split; [exact E2|right; left; reflexivity]|].
    intros b Hb. split; [exists (data true)|exists (data false)]; (split; [assumption|]; split; [reflexivity|unfold covers; cbn; lia]).
Qed.
End K.
Ltac rw_meet := apply rw_by; [|reflexivity|item|item|item|item|vm_compute; reflexivity|vm_compute; reflexivity].
Example rw_riscv : rw_met (Riscv rv64).
Proof. rw_meet. right; split; [reflexivity|left; reflexivity]. Qed.
Example rw_powerpc : rw_met (Powerpc pp64).
Proof. rw_meet. right. reflexivity. Qed.
Example rw_aarch64 : rw_met (Aarch64 aa0).
Proof. rw_meet. exact Logic.I. Qed.
