(* C35 for weak memory: what a call presents to the memory system, and with it every execution of a concurrent program (Graph.v), is the same whatever registers the
   compiler picks for the asm! operands - a choice of its own at every call. *)
From Verif Require Import Api All_misc Order Graph Prop_foot Alloc AllocAll AllocItems Prop_alloc Prop_ops Examples Arch_riscv.

(* ---- specification ---- *)
(* a complete call compiled with the allocation [g]: [call_items] (Order.v) with the chosen registers in place of the operands *)
Inductive alloc_items (T : arch) (g : reg -> reg) (c : op) : list item -> rval -> Prop :=
| ai f os s0 its sf r : op_args T c -> op_pre T c = Ret tt -> op_impl T c = Impl f -> permitted g f -> wf_oracles os -> pc s0 = O -> f_in (alloc g f) (rf s0) ->
    irun (arch_mm T) (t_e T) (f_prog (alloc g f)) os s0 tn0 = Some (its, sf) -> at_exit (f_prog (alloc g f)) sf -> f_out (alloc g f) (rf sf) = Some r ->
    alloc_items T g c its r.
(* executions (Graph.v) of a compiled program: every call has an allocation of its own *)
Record alloc_execution (T : arch) (G : graph) : Prop := {
  ax_calls : forall t q c r its, nth_error (g_thr G t) q = Some (Call c r its) -> exists g, alloc_items T g c its r;
  ax_sane : sane G;
  ax_mm : if arch_mca T then mca_ok T G else nmca_ok T G
}.
(* what a call compiled with the allocation [g] has accessed by some moment ([accessed], Prop_foot.v) *)
Inductive alloc_accessed (T : arch) (g : reg -> reg) (c : op) : list item -> Prop :=
| aa f os s0 its sf : op_args T c -> op_impl T c = Impl f -> permitted g f -> pc s0 = O -> f_in (alloc g f) (rf s0) ->
    irun (arch_mm T) (t_e T) (f_prog (alloc g f)) os s0 tn0 = Some (its, sf) -> alloc_accessed T g c its.

(* ---- theorems ---- *)
Theorem C35_same_items T g c its r : alloc_items T g c its r -> call_items T c its r.
Proof.
  intros [f os h its' hf r' Ha Hp Hi Pm Wo P0 Hf R X O]. destruct (irun_alloc g f _ _ os h its' hf Pm (op_alias T c f Hi) P0 Hf R) as (s & sf & Ps & Is & Rs & Xs & Os).
  exact (ci T c f os s its' sf r' Ha Hp Hi Wo Ps Is Rs (Xs X) (eq_trans (eq_sym Os) O)).
Qed.
Theorem C35_weak_executions T G : alloc_execution T G -> execution T G.
Proof. intros [C S Mm]. constructor; [|exact S|exact Mm]. intros t q c r its Hq. destruct (C t q c r its Hq) as [g K]. exact (C35_same_items T g c its r K). Qed.
Theorem C35_accessed T g c its : alloc_accessed T g c its -> accessed T c its.
Proof.
  intros [f os h its' hf Ha Hi Pm P0 Hf R]. destruct (irun_alloc g f _ _ os h its' hf Pm (op_alias T c f Hi) P0 Hf R) as (s & sf & Ps & Is & Rs & _ & _).
  exact (ac T c f os s its' sf Ha Hi Ps Is Rs).
Qed.
