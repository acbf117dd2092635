(* src/arch_legacy: implementations for compilers that do not accept MaybeUninit<_> as an asm! operand (rustc < 1.74; lib.rs:104).
   Values are passed in private buffers: the arguments are local variables whose addresses are operands of the block
   (`let val = val.as_ptr()`), the result is written to a local variable `out` inside the block.
   Simplification: a private buffer is not part of the shared memory of Machine.v - nobody else has its address - so a load from it is a
   register operation that yields the buffer's contents if the address is the buffer's and an arbitrary value otherwise, and a store to the result
   buffer is a register operation on [OutB] (what the buffer holds) with the same proviso. *)
From Verif Require Export ArchCommon.

(* addresses of the private buffers *)
Record bufs := mkbufs { b_val : Z; b_old : Z; b_new : Z; b_out : Z }.
(* the private buffers are somewhere in the address space *)
Definition bufs_ok (pw : Z) (b : bufs) : Prop :=
  0 <= b_val b < 2 ^ pw /\ 0 <= b_old b < 2 ^ pw /\ 0 <= b_new b < 2 ^ pw /\ 0 <= b_out b < 2 ^ pw.
(* load from the buffer at [p]: [x] is the (extended) contents *)
Definition pld (p x : Z) (r ar : reg) := Op r (fun j l => match l with [q] => if q =? p then x else j | _ => 0 end) [ar].
(* two registers from the two halves of the buffer *)
Definition pldp (p x y : Z) (r r' ar : reg) := Op2 r r' (fun j l => match l with [q] => (if q =? p then x else j, if q =? p then y else j) | _ => (0, 0) end) [ar].
(* store the low [n] bytes of [r] to (the part [ob] of) the result buffer at [p] *)
Definition pst (p n : Z) (ob r ar : reg) := Op ob (fun j l => match l with [q; y] => if q =? p then low (8 * n) y else j | _ => 0 end) [ar; r].
(* store two registers, [n] bytes each, to the two halves of the result buffer *)
Definition pstp (p n : Z) (r r' ar : reg) :=
  Op2 OutB OutBHi (fun j l => match l with [q; y; y'] => (if q =? p then low (8 * n) y else j, if q =? p then low (8 * n) y' else j) | _ => (0, 0) end) [ar; r; r'].
(* Rust code after most compare_exchange blocks: assert_unchecked(r == 0 || r == 1); (out, r != 0) *)
Definition ret_cas_l (out r : Z) : option (Z * bool) := if (r =? 0) || (r =? 1) then Some (out, negb (r =? 0)) else None.
