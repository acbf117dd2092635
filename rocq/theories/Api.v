(* The public API (src/lib.rs) on top of the implementations: ordering checks, then the implementation of the target. *)
From Verif Require Export Target.

(* one operation on the [n]-byte cell at [a] *)
Inductive op :=
| OLoad (n : Z) (o : ordering) (a : Z)
| OStore (n : Z) (o : ordering) (a v : Z)
| OSwap (n : Z) (o : ordering) (a v : Z)
| OCas (n : Z) (success failure : ordering) (a current new : Z)
| OCasWeak (n : Z) (success failure : ordering) (a current new : Z).
(* what it returns: lib.rs:309, 343, 383, 563-567, 650-654; [RCas v ok] is `if ok { Ok(out) } else { Err(out) }` *)
Inductive rval := RVal (v : Z) | RUnit | RCas (v : Z) (ok : bool).

(* the atomic operations a user thinks of: sequential effect of each call on memory *)
Definition op_spec (e : endian) (c : op) : mem -> mem -> rval -> Prop := fun m m' r =>
  match c, r with
  | OLoad n _ a, RVal v => load_spec e a n m m' v
  | OStore n _ a v, RUnit => store_spec e a n v m m' tt
  | OSwap n _ a v, RVal old => swap_spec e a n v m m' old
  | OCas n _ _ a cur new, RCas v ok => cas_spec e a n cur new m m' (v, ok)
  | OCasWeak n _ _ a cur new, RCas v ok => casw_spec e a n cur new m m' (v, ok)
  | _, _ => False
  end.

(* a block whose decoded result is post-processed by safe Rust code *)
Definition fmap {A B} (g : A -> B) (f : fn A) : fn B :=
  mkfnl (f_prog f) (f_in f) (fun r => option_map g (f_out f r)) (f_clob f) (f_late f).
Definition impl_map {A B} (g : A -> B) (i : impl A) : impl B :=
  match i with NoImpl => NoImpl | Unreachable => Unreachable | Impl x => Impl (g x) end.
(* the implementation of a call on a target *)
Definition op_impl (T : arch) (c : op) : impl (fn rval) :=
  match c with
  | OLoad n o a => impl_map (fmap RVal) (t_load T n o a)
  | OStore n o a v => impl_map (fmap (fun _ => RUnit)) (t_store T n o a v)
  | OSwap n o a v => impl_map (fmap RVal) (t_swap T n o a v)
  | OCas n s f a cur new => impl_map (fmap (fun r => RCas (fst r) (snd r))) (t_cas T n s f a cur new)
  | OCasWeak n s f a cur new => impl_map (fmap (fun r => RCas (fst r) (snd r))) (t_casw T n s f a cur new)
  end.
(* lib.rs: the assert_*_ordering call that comes first in every method: load 299, store 334, swap none, compare_exchange 546,
   compare_exchange_weak 632 *)
Definition op_check (c : op) : res unit :=
  match c with
  | OLoad _ o _ => assert_load_ordering o
  | OStore _ o _ _ => assert_store_ordering o
  | OSwap _ _ _ _ => Ret tt
  | OCas _ s f _ _ _ | OCasWeak _ s f _ _ _ => assert_compare_exchange_ordering s f
  end.
Definition op_size (c : op) : Z :=
  match c with OLoad n _ _ | OStore n _ _ _ | OSwap n _ _ _ | OCas n _ _ _ _ _ | OCasWeak n _ _ _ _ _ => n end.
(* everything that is checked before any memory is touched: the API's ordering check, then the implementation's own *)
Definition op_pre (T : arch) (c : op) : res unit := match op_check c with Panic => Panic | Ret _ => t_gate T (op_size c) end.
(* arguments that can occur: a cell of the type, values of the type *)
Definition op_args (T : arch) (c : op) : Prop :=
  match c with
  | OLoad n _ a => cell T n a
  | OStore n _ a v | OSwap n _ a v => cell T n a /\ val n v
  | OCas n _ _ a cur new | OCasWeak n _ _ a cur new => cell T n a /\ val n cur /\ val n new
  end.
(* compare_exchange on the targets where it is not what it should be (Target.v) *)
Definition op_broken (T : arch) (c : op) : bool :=
  match c with
  | OCas n _ _ _ _ _ => cas_upper_bits T n || cas_seq_byte T
  | OCasWeak _ _ _ _ _ _ => cas_seq_byte T
  | _ => false
  end.
(* what a call is: a compare_exchange whose comparison looks at unspecified register bits can fail although the bytes are equal, so it is only
   a compare_exchange_weak (Target.v; C04_riscv64_refuted, C04_loongarch64_refuted, C04_mips64_refuted); every other call is what it says *)
Definition as_done (T : arch) (c : op) : op :=
  match c with OCas n s f a cur new => if cas_upper_bits T n then OCasWeak n s f a cur new else c | _ => c end.
(* a call that may end in undefined behaviour (C19_m68k_refuted) *)
Definition op_ub (T : arch) (c : op) : bool := match c with OCas _ _ _ _ _ _ | OCasWeak _ _ _ _ _ _ => cas_seq_byte T | _ => false end.
Definition op_cell (c : op) : Z * Z :=
  match c with OLoad n _ a | OStore n _ a _ | OSwap n _ a _ | OCas n _ _ a _ _ | OCasWeak n _ _ a _ _ => (a, n) end.

(* Some finite execution of the block on the machine of its target, from its first instruction, under arbitrary interference:
   [t] = own steps visible to everybody else so far, [t'] = the same if the block ends here (interrupt-masking targets: the
   masked section still open becomes visible), [sf] = machine state reached. *)
Definition t_ie (T : arch) : option (regs -> bool) :=
  match T with Avr _ _ => Some Arch_avr.av_ie | Msp430 => Some Arch_msp430.ms_ie | _ => None end.
Inductive ran {A} (T : arch) (f : fn A) : trace -> trace -> tst -> Prop :=
| ran_mp os s0 t sf : t_ie T = None -> wf_oracles os -> pc s0 = O -> f_in f (rf s0) -> run (t_e T) (f_prog f) os s0 = Ran t sf -> ran T f t t sf
| ran_irq ie os s0 m0 t cur sf : t_ie T = Some ie -> wf_oracles os -> wf_mem m0 -> pc s0 = O -> f_in f (rf s0) ->
    run_irq LE (f_prog f) ie os (if ie (rf s0) then None else Some (m0, m0)) s0 = Some (t, cur, sf) -> ran T f t (t ++ close cur) sf.
Definition stuck {A} (T : arch) (f : fn A) : Prop :=
  match t_ie T with
  | None => exists os s0, wf_oracles os /\ pc s0 = O /\ f_in f (rf s0) /\ run (t_e T) (f_prog f) os s0 = Stuck
  | Some ie => exists os s0 m0, wf_oracles os /\ wf_mem m0 /\ pc s0 = O /\ f_in f (rf s0) /\
                 run_irq LE (f_prog f) ie os (if ie (rf s0) then None else Some (m0, m0)) s0 = None
  end.

(* One call of an API method: it may panic at once, be somewhere inside the block, have returned, or hit undefined behaviour
   (a false promise to the optimizer, a jump to nowhere).  [t] = the call's own steps as seen by everybody else. *)
Inductive status := Panicked | Running | Returned (r : rval) | UB.
Inductive call_run (T : arch) (c : op) : trace -> status -> Prop :=
| cr_panic : op_pre T c = Panic -> call_run T c [] Panicked
| cr_unreachable : op_pre T c = Ret tt -> op_impl T c = Unreachable -> call_run T c [] Panicked    (* `unreachable!()` panics *)
| cr_running f t t' sf : op_pre T c = Ret tt -> op_impl T c = Impl f -> ran T f t t' sf -> call_run T c t Running
| cr_ret f t t' sf r : op_pre T c = Ret tt -> op_impl T c = Impl f -> ran T f t t' sf -> at_exit (f_prog f) sf -> f_out f (rf sf) = Some r ->
    call_run T c t' (Returned r)
| cr_ub f t t' sf : op_pre T c = Ret tt -> op_impl T c = Impl f -> ran T f t t' sf -> at_exit (f_prog f) sf -> f_out f (rf sf) = None ->
    call_run T c t' UB
| cr_stuck f : op_pre T c = Ret tt -> op_impl T c = Impl f -> stuck T f -> call_run T c [] UB.
