(* Single-core targets (AVR, MSP430) implement most operations by masking interrupts.  This file is the machine and the
   specification for them: the block is interrupted only by handlers of the same core, and none runs while the
   interrupt-enable bit of the status register is clear. *)
From Verif Require Export Spec.

(* [ie f]: are interrupts enabled, given the register file?  [cur]: [Some (b, m)] while interrupts are masked: memory was [b]
   when the last point where a handler could run was left, and is [m] now.  While masked, the memory of the oracle is ignored:
   nobody else runs.  Own steps taken while masked are one step [(b, m)] for everybody else; it appears in the trace when
   interrupts are enabled again. *)
Fixpoint run_irq (e : endian) (p : list instr) (ie : regs -> bool) (os : list oracle) (cur : option (mem * mem)) (s : tst)
  : option (trace * option (mem * mem) * tst) :=
  match os with
  | [] => Some ([], cur, s)
  | o :: os' =>
    match nth_error p (pc s) with
    | None => Some ([], cur, s)
    | Some i =>
      let m := match cur with Some (_, c) => c | None => o_mem o end in
      let b := match cur with Some (b, _) => b | None => m end in
      match exec e p i (mkor m (o_ok o) (o_junk o)) s with
      | None => None
      | Some (s', m') =>
        if ie (rf s')
        then match run_irq e p ie os' None s' with Some (t, c, sf) => Some ((b, m') :: t, c, sf) | None => None end
        else run_irq e p ie os' (Some (b, m')) s'
      end
    end
  end.
Definition close (cur : option (mem * mem)) : trace := match cur with Some st => [st] | None => [] end.

(* The block implements [spec] atomically, whether called with interrupts enabled or masked, for every interrupt schedule:
   it never gets stuck; at its end the result is defined, the trace seen by the rest of the system linearizes to [spec], and
   the interrupt-enable state is what it was at the call; at every earlier point what the rest of the system has seen is
   nothing or exactly the one effect. *)
Definition atomic_irq {A} (e : endian) (ie : regs -> bool) (f : fn A) (spec : mem -> mem -> A -> Prop) : Prop :=
  forall os s0 m0, wf_oracles os -> wf_mem m0 -> pc s0 = O -> f_in f (rf s0) ->
  match run_irq e (f_prog f) ie os (if ie (rf s0) then None else Some (m0, m0)) s0 with
  | None => False
  | Some (t, cur, sf) =>
      (at_exit (f_prog f) sf ->
         (exists r, f_out f (rf sf) = Some r /\ lin spec (t ++ close cur) r) /\ ie (rf sf) = ie (rf s0)) /\
      pending spec t
  end.
(* operand contract, including the status register when it is not in [f_clob] *)
Definition contract_irq {A} (e : endian) (ie : regs -> bool) (f : fn A) : Prop :=
  forall os s0 c0 t cur sf, pc s0 = O -> f_in f (rf s0) -> run_irq e (f_prog f) ie os c0 s0 = Some (t, cur, sf) ->
    at_exit (f_prog f) sf -> forall r, ~ In r (f_clob f) -> rf sf r = rf s0 r.
(* straight-line: every run is at the block's end after [L] instructions *)
Definition bounded_irq {A} (e : endian) (ie : regs -> bool) (f : fn A) (L : nat) : Prop :=
  forall os s0 c0, pc s0 = O -> f_in f (rf s0) -> (L <= length os)%nat ->
    exists t cur sf, run_irq e (f_prog f) ie os c0 s0 = Some (t, cur, sf) /\ at_exit (f_prog f) sf.

(* arithmetic instructions change the flags in [fm] and nothing else of the status register *)
Definition set_flags (fm j x : Z) : Z := Z.lor (Z.ldiff x fm) (Z.land j fm).
(* operand contract and bounded length together *)
Definition good_irq {A} (ie : regs -> bool) (f : fn A) (L : nat) : Prop := contract_irq LE ie f /\ bounded_irq LE ie f L.
