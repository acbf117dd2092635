(* The specification vocabulary: what it means for a block of machine code to be     *)
(* one atomic operation.  Nothing here mentions a particular program.                 *)
From Verif Require Export Machine.

(* A step by which the thread itself changed nothing. *)
Definition silent (st : mem * mem) : Prop := meq (fst st) (snd st).

(* [lin spec t r]: in the own-step trace [t] there is exactly one distinguished step, taken  *)
(* from memory [m] to memory [m'], at which the atomic specification [spec] holds with result *)
(* [r]; every other own step leaves memory as it found it.                                     *)
Definition lin {A} (spec : mem -> mem -> A -> Prop) (t : trace) (r : A) : Prop :=
  exists t1 m m' t2, t = t1 ++ (m, m') :: t2 /\
    Forall silent t1 /\ Forall silent t2 /\ spec m m' r.

(* a call that has not returned yet: no effect so far, or its one effect has happened *)
Definition pending {A} (spec : mem -> mem -> A -> Prop) (t : trace) : Prop :=
  Forall silent t \/ exists r, lin spec t r.

(* ---- sequential specifications of the five operations on the [n]-byte cell at [a] ---- *)
(* load: returns the integer stored in the cell; memory unchanged *)
Definition load_spec (e : endian) (a n : Z) : mem -> mem -> Z -> Prop :=
  fun m m' r => r = rd e m a n /\ meq m m'.
(* store: exactly the cell's bytes become those of [v] *)
Definition store_spec (e : endian) (a n v : Z) : mem -> mem -> unit -> Prop :=
  fun m m' _ => meq m' (wr e m a n v).
(* swap: store and return the value the cell had *)
Definition swap_spec (e : endian) (a n v : Z) : mem -> mem -> Z -> Prop :=
  fun m m' r => r = rd e m a n /\ meq m' (wr e m a n v).
(* compare_exchange: success exactly when the cell equals [old] *)
Definition cas_spec (e : endian) (a n old new : Z) : mem -> mem -> Z * bool -> Prop :=
  fun m m' r => fst r = rd e m a n /\
    if snd r then rd e m a n = old /\ meq m' (wr e m a n new)
    else rd e m a n <> old /\ meq m' m.
(* compare_exchange_weak: failure allowed even when the cell equals [old] *)
Definition casw_spec (e : endian) (a n old new : Z) : mem -> mem -> Z * bool -> Prop :=
  fun m m' r => fst r = rd e m a n /\
    if snd r then rd e m a n = old /\ meq m' (wr e m a n new)
    else meq m' m.

(* ---- an implementation: asm block + how Rust passes operands and decodes results ---- *)
Record fn (A : Type) := mkfnl {
  f_prog : list instr;            (* the asm! block                                         *)
  f_in   : regs -> Prop;          (* what the in/inout operands guarantee about registers    *)
  f_out  : regs -> option A;      (* Rust code after the block; None = undefined behaviour
                                     (a false assert_unchecked)                              *)
  f_clob : list reg;              (* registers declared out/inout/lateout, plus FZ.. when the
                                     block does not say preserves_flags                      *)
  f_late : list reg               (* those declared lateout: the compiler may give them the register of an
                                     input (used by Alloc.v only)                            *)
}.
Arguments mkfnl {A}. Arguments f_prog {A}. Arguments f_in {A}. Arguments f_out {A}. Arguments f_clob {A}. Arguments f_late {A}.
(* a block without lateout operands *)
Notation mkfn p i o c := (mkfnl p i o c nil).

(* operand of [k] bits with value [v] in a [w]-bit register: the bits above [k] are unspecified
   (Rust reference, inline assembly: "upper bits ... undefined value for inputs") *)
Definition opnd (w k v x : Z) : Prop := 0 <= x < 2 ^ w /\ low k x = v.

(* Rust code after most compare_exchange blocks (e.g. src/arch/riscv.rs:248-249, src/utils.rs:71-80): assert_unchecked(r == 0 || r == 1); (out, r != 0) *)
Definition ret_cas (n out r : Z) : option (Z * bool) :=
  if (r =? 0) || (r =? 1) then Some (low (8 * n) out, negb (r =? 0)) else None.

Definition wf_oracles (os : list oracle) : Prop := Forall (fun o => wf_mem (o_mem o)) os.

(* The block implements [spec] atomically: for every number of steps, every memory seen before  *)
(* each step, every store-conditional outcome, every unspecified value, every initial register  *)
(* contents allowed by the operands and every stale reservation:                               *)
(*  - it never gets stuck;                                                                      *)
(*  - when it has run to its end, Rust decodes a result [r] (no UB) and the trace linearizes    *)
(*    to [spec] with result [r];                                                                *)
(*  - at any earlier point it has had no effect or exactly its one effect.                      *)
Definition atomic_fn {A} (e : endian) (f : fn A) (spec : mem -> mem -> A -> Prop) : Prop :=
  forall os s0, wf_oracles os -> pc s0 = O -> f_in f (rf s0) ->
  match run e (f_prog f) os s0 with
  | Stuck => False
  | Ran t sf =>
      (at_exit (f_prog f) sf -> exists r, f_out f (rf sf) = Some r /\ lin spec t r) /\
      pending spec t
  end.

(* operand contract: at exit every register not declared as output/clobber is unchanged *)
Definition contract {A} (e : endian) (f : fn A) : Prop :=
  forall os s0 t sf, pc s0 = O -> f_in f (rf s0) -> wf_oracles os ->
    run e (f_prog f) os s0 = Ran t sf -> at_exit (f_prog f) sf ->
    forall r, ~ In r (f_clob f) -> rf sf r = rf s0 r.

(* Progress (lock-freedom of one call).  [disturb e a n w os] counts the interference events of a
   run: own steps before which the [n]-byte word at [a] is no longer what it was at the previous
   own step ([w]), or whose store-conditional was made to fail spuriously ([o_ok = false]). *)
Fixpoint disturb (e : endian) (a n w : Z) (os : list oracle) : nat :=
  match os with
  | [] => 0
  | o :: os' => (if o_ok o && (rd e (o_mem o) a n =? w) then 0 else 1) + disturb e a n (rd e (o_mem o) a n) os'
  end.
Definition trace_of (o : outcome) : trace := match o with Ran t _ => t | Stuck => [] end.
(* every run takes at most [L] steps for each interference event, plus [L]; so retries are paid for by
   interference, and without interference the call is finished after at most [L] instructions *)
Definition progress {A} (e : endian) (f : fn A) (a n : Z) (L : nat) : Prop :=
  forall os s0 w, wf_oracles os -> pc s0 = O -> f_in f (rf s0) ->
    (length (trace_of (run e (f_prog f) os s0)) <= L * (1 + disturb e a n w os))%nat.

(* the same block under a stronger promise about its input registers *)
Definition with_in {A} (f : fn A) (P : regs -> Prop) : fn A :=
  mkfnl (f_prog f) (fun g => f_in f g /\ P g) (f_out f) (f_clob f) (f_late f).
