(* C07 on single-core targets: the main program and any number of interrupt handlers (or tasks) calling the API. *)
From Verif Require Export Conc.

(* The contexts share one core.  A context runs - calls, executes an instruction, returns, or does anything else to memory - only
   while no OTHER context is stopped inside a call at a point where interrupts are masked: with interrupts masked the core can not
   leave the running context.  Nothing else is assumed about the scheduling (nested handlers are the special case of a stack). *)
Definition may_run (ie : regs -> bool) (S : sys) (t : nat) : Prop :=
  forall t' x, t' <> t -> s_thr S t' = Some x -> ie (rf (k_st x)) = true.
Inductive istep (T : arch) (ie : regs -> bool) : sys -> event -> sys -> Prop :=
| is_inv S t c f s0 : may_run ie S t -> s_thr S t = None -> op_args T c -> op_pre T c = Ret tt -> op_impl T c = Impl f ->
    pc s0 = O -> f_in f (rf s0) ->
    istep T ie S (EInv t (s_next S) c) (mksys (s_mem S) (setthr (s_thr S) t (Some (mkfly (s_next S) c f s0))) (Datatypes.S (s_next S)))
| is_step S t k c f s i ok j s' m' : may_run ie S t -> s_thr S t = Some (mkfly k c f s) -> nth_error (f_prog f) (pc s) = Some i ->
    exec (t_e T) (f_prog f) i (mkor (s_mem S) ok j) s = Some (s', m') ->
    istep T ie S (EStep k (s_mem S, m')) (mksys m' (setthr (s_thr S) t (Some (mkfly k c f s'))) (s_next S))
| is_ret S t k c f s r : may_run ie S t -> s_thr S t = Some (mkfly k c f s) -> at_exit (f_prog f) s -> f_out f (rf s) = Some r ->
    istep T ie S (ERet k r) (mksys (s_mem S) (setthr (s_thr S) t None) (s_next S))
| is_plain S t m' : may_run ie S t -> s_thr S t = None -> wf_mem m' -> istep T ie S (EPlain (s_mem S) m') (mksys m' (s_thr S) (s_next S)).
Inductive isteps (T : arch) (ie : regs -> bool) : sys -> list event -> sys -> Prop :=
| isteps_nil S : isteps T ie S [] S
| isteps_cons S e S1 l S2 : istep T ie S e S1 -> isteps T ie S1 l S2 -> isteps T ie S (e :: l) S2.
(* no context is stopped inside a call with interrupts masked *)
Definition unmasked (ie : regs -> bool) (S : sys) : Prop := forall t x, s_thr S t = Some x -> ie (rf (k_st x)) = true.
