(* C48: two threads exchange values through a cell: executions that meet the hypotheses. *)
From Verif Require Import Ex_lock Ex_rseq Ex_graph Ex_sc Ex_count Prop_sc Examples Order Serial Interleave CellSeq Prop_hb Graph Prop_cell Prop_count Prop_hist.
From Verif Require Import Arch_riscv Arch_powerpc Arch_aarch64.

(* thread 0: swap(1, AcqRel) = 0; compare_exchange_weak(1, 2, Relaxed) = Ok(1);  thread 1: swap(3, AcqRel) = 2, load(Acquire) = 3 *)
Definition hi_s1 := OSwap 4 AcqRel 0x2000 1.
Definition hi_12 := OCasWeak 4 Relaxed Relaxed 0x2000 1 2.
Definition hi_s3 := OSwap 4 AcqRel 0x2000 3.
Definition hi_ld := OLoad 4 Acquire 0x2000.
Section K.
Context (T : arch).
Definition hi1 := its_of T hi_s1 st_os (lk_regs 1).
Definition hi2 := its_of T hi_12 (mem_os (t_e T) 1) (tk_regs 1 2).
Definition hi3 := its_of T hi_s3 (mem_os (t_e T) 2) (lk_regs 3).
Definition hi4 := its_of T hi_ld (mem_os (t_e T) 3) (tk_regs 0 0).
Definition hi_thr (t : nat) : list seg := match t with
  | O => [Call hi_s1 (RVal 0) hi1; Call hi_12 (RCas 1 true) hi2]
  | S O => [Call hi_s3 (RVal 2) hi3; Call hi_ld (RVal 3) hi4]
  | _ => [] end.
Definition hig : graph := serial hi_thr (fun _ => 0).
(* the hypotheses of C48_ordered (and so of C48_history) *)
Definition hi_met : Prop := t_ie T = None /\ t_wf T /\ execution T hig /\ cells_client hig /\
  (forall t q c r its, call_at hig t q c r its -> op_cell c = (0x2000, 4) -> is_store c = false) /\
  call_at hig 0 0 hi_s1 (RVal 0) hi1 /\ call_at hig 1 0 hi_s3 (RVal 2) hi3 /\ op_cell hi_s1 = (0x2000, 4) /\ op_cell hi_s3 = (0x2000, 4) /\
  releases (weff hi_s1) = true /\ releases (weff hi_s3) = true /\ acquires (eff hi_s1 (RVal 0)) = true /\ acquires (eff hi_s3 (RVal 2)) = true /\
  changes hi_s1 (RVal 0) /\ changes hi_s3 (RVal 2).
Lemma hi_by : t_wf T -> t_ie T = None -> call_items T hi_s1 hi1 (RVal 0) -> call_items T hi_12 hi2 (RCas 1 true) -> call_items T hi_s3 hi3 (RVal 2) -> call_items T hi_ld hi4 (RVal 3) ->
  match run_threads hi_thr (fun _ => 0) 2 0 (fun _ => 0) with Some m => true | None => false end = true -> hi_met.
Proof.
  intros W Ie C1 C2 C3 C4 Run. destruct (run_threads hi_thr (fun _ => 0) 2 0 (fun _ => 0)) as [m|] eqn:R; [|discriminate Run].
  assert (forall t q c r its, call_at hig t q c r its -> call_items T c its r /\ op_cell c = (0x2000, 4) /\ is_store c = false) as Ca.
  { intros t q c r its H. unfold call_at in H. destruct t as [|[|t]], q as [|[|q]]; cbn in H; try discriminate H; try (destruct q; discriminate H); injection H as <- <- <-; split; try assumption; split; reflexivity. }
  assert (forall t, (2 <= t)%nat -> hi_thr t = []) as Em by (intros [|[|t]] L; try lia; reflexivity). split; [exact Ie|]. split; [exact W|].
  split; [|split; [|split; [|repeat (split; [reflexivity|])]]].
  - apply interleaving_execution with lexlt. apply (serial_interleaving T hi_thr (fun _ => 0) 2); [intros t q c r its H; exact (proj1 (Ca _ _ _ _ _ H))|exact Em|congruence].
  - constructor.
    + intros t q its v b t' q' c r its' H. destruct t as [|[|t]], q as [|[|q]]; cbn in H; try discriminate H; destruct q; discriminate H.
    + intros t q c r its t' q' c' r' its' H H'. left. destruct (Ca _ _ _ _ _ H) as (_ & -> & _), (Ca _ _ _ _ _ H') as (_ & -> & _). reflexivity.
    + intros t q c r its H. destruct (Ca _ _ _ _ _ H) as (_ & -> & _). cbn. unfold an_integer. auto.
    + exists 2%nat. exact Em.
  - intros t q c r its H _. exact (proj2 (proj2 (Ca _ _ _ _ _ H))).
  - split; [right; exists 0, 1|right; exists 2, 3]; (split; [reflexivity|split; [reflexivity|lia]]).
Qed.
End K.
Ltac hi_meet := apply hi_by; [|reflexivity|item|item|item|item|vm_compute; reflexivity].
Example hi_riscv : hi_met (Riscv rv64).
Proof. hi_meet. right; split; [reflexivity|left; reflexivity]. Qed.
Example hi_powerpc : hi_met (Powerpc pp64).
Proof. hi_meet. right. reflexivity. Qed.
Example hi_aarch64 : hi_met (Aarch64 aa0).
Proof. hi_meet. exact Logic.I. Qed.
(* a history of the four calls *)
Example hi_hist : forall T, history T 0 [(0, 0, hi_s1, RVal 0); (0, 1, hi_12, RCas 1 true); (1, 0, hi_s3, RVal 2); (1, 1, hi_ld, RVal 3)]%nat 3.
Proof. intros T. repeat (eapply hi_cons; [cbn; repeat split; reflexivity|]). constructor. Qed.
