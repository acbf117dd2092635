(* src/arch/avr.rs (8-bit AVR, little-endian, single core) *)
From Verif Require Export ArchCommon Irq.

(* SREG.I = bit 7 *)
Definition av_ie (f : regs) : bool := Z.testbit (f SREG) 7.
(* ISA: in / out 0x3F; cli takes effect immediately *)
Definition in_sreg (r : reg) := mov r SREG.
Definition out_sreg (r : reg) := mov SREG r.
Definition cli := Op SREG (op1 (fun x => Z.ldiff x 128)) [SREG].
(* ISA: eor / or change Z, N, V, S (bits 1-4) *)
Definition eor (r a : reg) := Op2 r SREG (fun j l => match l with [x; y; s] => (Z.lxor x y, set_flags 30 j s) | _ => (0, 0) end) [r; a; SREG].
Definition avr_or (r a : reg) := Op2 r SREG (fun j l => match l with [x; y; s] => (Z.lor x y, set_flags 30 j s) | _ => (0, 0) end) [r; a; SREG].
(* `if r == 0` compiled to a flag-setting test (cp/tst: any of bits 0-5) and a branch *)
Definition tst_ (r : reg) := Op SREG (fun j l => match l with [s] => set_flags 63 j s | _ => 0 end) [SREG].

(* avr.rs:25-42 disable, 43-57 restore *)
Definition av_disable : list instr := [ in_sreg IrqSave; cli ].
Definition av_restore : list instr := [ out_sreg IrqSave ].
(* MaybeUninit<u8/u16>::read / write: rustc emits one byte access per byte; [ord] = lower address first.
   The second byte of a 16-bit value is in the ...Hi register *)
Definition av_read (n : Z) (ord : bool) (a : reg) : list instr :=
  if n =? 1 then [ Ld 1 XZ plain Out a 0 ]
  else if ord then [ Ld 1 XZ plain Out a 0; Ld 1 XZ plain OutHi a 1 ] else [ Ld 1 XZ plain OutHi a 1; Ld 1 XZ plain Out a 0 ].
Definition av_write (n : Z) (ord : bool) (r rh a : reg) : list instr :=
  if n =? 1 then [ St 1 plain r a 0 ]
  else if ord then [ St 1 plain r a 0; St 1 plain rh a 1 ] else [ St 1 plain rh a 1; St 1 plain r a 0 ].
(* a value in 8-bit registers *)
Definition av_val (n v : Z) (r rh : reg) (f : regs) : Prop := f r = low 8 v /\ (n = 2 -> f rh = Z.shiftr v 8).
Definition av_get (n : Z) (f : regs) : Z := if n =? 1 then low 8 (f Out) else low 8 (f Out) + f OutHi * 2 ^ 8.
Definition av_sreg (f : regs) : Prop := 0 <= f SREG < 2 ^ 8.

(* avr.rs:141-159 atomic_load (8-bit): ld {out}, Z *)
Definition av_load8_fn (a : Z) : fn Z :=
  mkfn [ Ld 1 XZ plain Out Src 0 ] (fun f => f Src = a /\ av_sreg f) (fun f => Some (low 8 (f Out))) [Out].
(* avr.rs:160-177 atomic_store (8-bit): st Z, {val} *)
Definition av_store8_fn (a v : Z) : fn unit :=
  mkfn [ St 1 plain Val Dst 0 ] (fun f => f Dst = a /\ f Val = v /\ av_sreg f) (fun f => Some tt) [].
(* avr.rs:186-201 atomic_load (16-bit) *)
Definition av_load16_fn (ord : bool) (a : Z) : fn Z :=
  mkfn (av_disable ++ av_read 2 ord Src ++ av_restore) (fun f => f Src = a /\ av_sreg f) (fun f => Some (av_get 2 f)) [Out; OutHi; IrqSave].
(* avr.rs:202-217 atomic_store (16-bit) *)
Definition av_store16_fn (ord : bool) (a v : Z) : fn unit :=
  mkfn (av_disable ++ av_write 2 ord Val ValHi Dst ++ av_restore) (fun f => f Dst = a /\ av_val 2 v Val ValHi f /\ av_sreg f)
       (fun f => Some tt) [IrqSave].
(* avr.rs:89-110 atomic_swap! *)
Definition av_swap_fn (n : Z) (o1 o2 : bool) (a v : Z) : fn Z :=
  mkfn (av_disable ++ av_read n o1 Dst ++ av_write n o2 Val ValHi Dst ++ av_restore)
       (fun f => f Dst = a /\ av_val n v Val ValHi f /\ av_sreg f) (fun f => Some (av_get n f)) [Out; OutHi; IrqSave].
(* avr.rs:59-87 xor8, cmp8, cmp16 (R = result of the comparison value) *)
Definition av_cmp (n : Z) : list instr :=
  if n =? 1 then [ mov R Old; eor R Out ]
  else [ mov R Old; eor R Out; mov RHi OldHi; eor RHi OutHi; avr_or R RHi ].
(* avr.rs:111-137 atomic_cas! *)
Definition av_cas_fn (n : Z) (o1 o2 : bool) (a old new : Z) : fn (Z * bool) :=
  mkfn (av_disable ++ av_read n o1 Dst ++ av_cmp n ++ [ tst_ R; bnez_ R (F 3) ] ++ av_write n o2 New NewHi Dst ++ [ Lab 3 ] ++ av_restore)
       (fun f => f Dst = a /\ av_val n old Old OldHi f /\ av_val n new New NewHi f /\ av_sreg f)
       (fun f => Some (av_get n f, f R =? 0)) [Out; OutHi; R; RHi; IrqSave].

(* ---- which implementation a type gets: avr.rs:223-228; no ordering distinctions (single core; no weak compare_exchange) ---- *)
Definition av_load (ord : bool) (n : Z) (o : ordering) (a : Z) : impl (fn Z) :=
  if n =? 1 then Impl (av_load8_fn a) else if n =? 2 then Impl (av_load16_fn ord a) else NoImpl.
Definition av_store (ord : bool) (n : Z) (o : ordering) (a v : Z) : impl (fn unit) :=
  if n =? 1 then Impl (av_store8_fn a v) else if n =? 2 then Impl (av_store16_fn ord a v) else NoImpl.
Definition av_swap (o1 o2 : bool) (n : Z) (o : ordering) (a v : Z) : impl (fn Z) :=
  if (n =? 1) || (n =? 2) then Impl (av_swap_fn n o1 o2 a v) else NoImpl.
Definition av_cas (o1 o2 : bool) (n : Z) (success failure : ordering) (a old new : Z) : impl (fn (Z * bool)) :=
  if (n =? 1) || (n =? 2) then Impl (av_cas_fn n o1 o2 a old new) else NoImpl.
