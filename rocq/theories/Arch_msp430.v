(* src/arch/msp430.rs (16-bit MSP430, little-endian, single core) *)
From Verif Require Export ArchCommon Irq.

(* SR.GIE = bit 3; flags V, N, Z, C = bits 8, 2, 1, 0 *)
Definition ms_ie (f : regs) : bool := Z.testbit (f SREG) 3.
(* ISA: dint takes effect after the next instruction, hence the nop: an interrupt may still be taken before the nop is done *)
Definition dint := Op SREG (op1 (fun x => x)) [SREG].   (* no effect yet *)
Definition nop_after_dint := Op SREG (op1 (fun x => Z.ldiff x 8)) [SREG].
Definition nop_ := Op SREG (op1 (fun x => x)) [SREG].   (* no effect *)
(* ISA: xor.sz clears the bits above the size in the destination register; changes V, N, Z, C *)
Definition xor_sz (n : Z) (b a : reg) :=
  Op2 a SREG (fun j l => match l with [x; y; s] => (low (8 * n) (Z.lxor x y), set_flags 263 j s) | _ => (0, 0) end) [a; b; SREG].
(* `if r == 0` compiled to a flag-setting test and a branch *)
Definition tst_ := Op SREG (fun j l => match l with [s] => set_flags 263 j s | _ => 0 end) [SREG].

(* msp430.rs:26-44 disable, 45-67 restore *)
Definition ms_disable : list instr := [ mov IrqSave SREG; dint; nop_after_dint ].
Definition ms_restore : list instr := [ nop_; mov SREG IrqSave; nop_ ].
Definition ms_sr (f : regs) : Prop := 0 <= f SREG < 2 ^ 16.

(* msp430.rs:71-89 atomic_load: mov.sz @src, out (mov.b clears the upper byte) *)
Definition ms_load_fn (n a : Z) : fn Z :=
  mkfnl [ Ld n XZ plain Out Src 0 ] (fun f => f Src = a /\ ms_sr f) (fun f => Some (low (8 * n) (f Out))) [Out] [Out].
(* msp430.rs:90-107 atomic_store: mov.sz val, 0(dst) *)
Definition ms_store_fn (n a v : Z) : fn unit :=
  mkfn [ St n plain Val Dst 0 ] (fun f => f Dst = a /\ opnd 16 (8 * n) v (f Val) /\ ms_sr f) (fun f => Some tt) [].
(* msp430.rs:108-125 atomic_swap; dst.read()/dst.write(): one mov of the type's size *)
Definition ms_swap_fn (n a v : Z) : fn Z :=
  mkfn (ms_disable ++ [ Ld n XZ plain Out Dst 0; St n plain Val Dst 0 ] ++ ms_restore)
       (fun f => f Dst = a /\ opnd 16 (8 * n) v (f Val) /\ ms_sr f) (fun f => Some (low (8 * n) (f Out))) [Out; IrqSave].
(* msp430.rs:126-162 atomic_compare_exchange; the asm! operand a is inout old => r *)
Definition ms_cas_fn (n a old new : Z) : fn (Z * bool) :=
  mkfn (ms_disable ++ [ Ld n XZ plain Out Dst 0; mov R Old; xor_sz n Out R; tst_;
          Br (br1 (fun r => negb (low (8 * n) r =? 0))) [R] (F 3); St n plain New Dst 0; Lab 3 ] ++ ms_restore)
       (fun f => f Dst = a /\ opnd 16 (8 * n) old (f Old) /\ opnd 16 (8 * n) new (f New) /\ ms_sr f)
       (fun f => Some (low (8 * n) (f Out), low (8 * n) (f R) =? 0)) [Out; R; IrqSave].

(* ---- which implementation a type gets: msp430.rs:167-172; no ordering distinctions (single core; no weak compare_exchange) ---- *)
Definition ms_size (n : Z) : bool := (n =? 1) || (n =? 2).
Definition ms_load (n : Z) (o : ordering) (a : Z) : impl (fn Z) := if ms_size n then Impl (ms_load_fn n a) else NoImpl.
Definition ms_store (n : Z) (o : ordering) (a v : Z) : impl (fn unit) := if ms_size n then Impl (ms_store_fn n a v) else NoImpl.
Definition ms_swap (n : Z) (o : ordering) (a v : Z) : impl (fn Z) := if ms_size n then Impl (ms_swap_fn n a v) else NoImpl.
Definition ms_cas (n : Z) (success failure : ordering) (a old new : Z) : impl (fn (Z * bool)) :=
  if ms_size n then Impl (ms_cas_fn n a old new) else NoImpl.
