(* src/arch/arm_linux.rs (pre-v6 Arm Linux/Android; either endianness): kernel user helpers *)
From Verif Require Export Arch_arm.
From Verif Require Import Sub32.

(* arm_linux.rs:42-59 blx!(): `blx addr`, or `mov lr, pc; bx addr` before v5te.  Simplification: call, helper body and return
   are one step; r0 = AR0, r1 = AR1, r2 = Dst, r3 = AR3, ip = AR4, lr = AR5. *)
Definition al_nz (j : Z) : Z := if j =? 0 then 1 else j.   (* "r0 = nonzero" *)
(* __kuser_cmpxchg (Documentation/arch/arm/kernel_user_helpers.rst): atomic { if *r2 == r0 { *r2 = r1; r0 = 0; C = 1 }
   else { r0 = nonzero; C = 0 } }, clobbers r3, ip, lr and the flags; it may also fail spuriously here *)
Definition kuser_cmpxchg : instr :=
  Rmw 4 acqrel Dst
    (fun ok v f => if ok && (v =? low 32 (f AR0)) then Some (f AR1) else None)
    (fun ok j v f => if ok && (v =? low 32 (f AR0)) then [(AR0, 0); (FC, 1); (FZ, j); (AR3, j); (AR4, j); (AR5, j)]
                     else [(AR0, al_nz j); (FC, 0); (FZ, j); (AR3, j); (AR4, j); (AR5, j)]).
(* The 64-bit operations pass values to the helper through private stack buffers.  Simplification: the two words of the
   buffer `out`/`out_tmp` at address [po] are XA, XB; those of the (read-only) buffer `val`/`new` are XC, XD; no other thread can
   reach them.  The helper dereferences r0 and r1. *)
Definition al_deref (e : endian) (po p : Z) (f : regs) : Z :=
  if p =? po then halves e 32 (f XA) (f XB) else halves e 32 (f XC) (f XD).
(* __kuser_cmpxchg64: atomic { if *r2 == *r0 { *r2 = *r1; r0 = 0; C = 1 } else { r0 = nonzero; C = 0 } }, clobbers r3, lr, flags *)
Definition kuser_cmpxchg64 (e : endian) (po : Z) : instr :=
  Rmw 8 acqrel Dst
    (fun ok v f => if ok && (v =? al_deref e po (f AR0) f) then Some (al_deref e po (f AR1) f) else None)
    (fun ok j v f => if ok && (v =? al_deref e po (f AR0) f) then [(AR0, 0); (FC, 1); (FZ, j); (AR3, j); (AR5, j)]
                     else [(AR0, al_nz j); (FC, 0); (FZ, j); (AR3, j); (AR5, j)]).
(* ISA: bcc: branch if C == 0 *)
Definition bcc (l : lbl) := Br (br1 (fun c => c =? 0)) [FC] l.
(* ISA: lsl/lsr rd, rn, rs: amount = low byte of rs, >= 32 gives 0; mvn *)
Definition lsl_val (x y : Z) : Z := if low 8 y <? 32 then shl32 x (low 8 y) else 0.
Definition lsr_val (x y : Z) : Z := if low 8 y <? 32 then shr32 x (low 8 y) else 0.
Definition lsl (r a b : reg) := Op r (op2 lsl_val) [a; b].
Definition lsr (r a b : reg) := Op r (op2 lsr_val) [a; b].
Definition mvn (r a : reg) := Op r (op1 not32) [a].

(* arm_linux.rs:75-97 atomic_load: kuser_memory_barrier is a full barrier *)
Definition al_load_tbl (o : ordering) : option fence :=
  match o with Relaxed => Some FNone | Acquire | SeqCst => Some FDmb | _ => None end.
(* arm_linux.rs:126-138 atomic_store: (after, before) *)
Definition al_store_tbl (o : ordering) : option (fence * fence) :=
  match o with Relaxed => Some (FNone, FNone) | Release => Some (FNone, FDmb) | SeqCst => Some (FDmb, FDmb) | _ => None end.
(* arm_linux.rs:60-100 atomic_load; lr (and the address register, declared inout) are clobbered if there is a barrier *)
Definition al_load_fn (n a : Z) (t : fence) : fn Z :=
  mkfnl [ Ld n XZ plain Out Src 0; Fence t ] (fun f => f Src = a) (fun f => Some (low (8 * n) (f Out))) [Out; AR5] [Out].
(* arm_linux.rs:101-143 atomic_store *)
Definition al_store_fn (n a v : Z) (t : fence * fence) : fn unit :=
  mkfn [ Fence (snd t); St n plain Val Dst 0; Fence (fst t) ]
       (fun f => f Dst = a /\ opnd 32 (8 * n) v (f Val)) (fun f => Some tt) [AR5].
(* arm_linux.rs:149-182 atomic_swap (32-bit) *)
Definition al_swap_fn (a v : Z) : fn Z :=
  mkfn [ Lab 2;
           Ld 4 XZ plain Out Dst 0;
           mov AR0 Out;
           kuser_cmpxchg;
           bcc (B 2) ]
       (fun f => f Dst = a /\ opnd 32 32 v (f AR1)) (fun f => Some (low 32 (f Out))) [Out; AR0; AR3; AR4; AR5; FZ; FC].
(* arm_linux.rs:183-236 atomic_compare_exchange (32-bit) *)
Definition al_cas_fn (a old new : Z) : fn (Z * bool) :=
  mkfn [ Lab 2;
           Ld 4 XZ plain Out Dst 0;
           mov AR0 Out;
           cmpz 32 Out Old;
           bne_z (F 3);
           mov AR1 New;
           kuser_cmpxchg;
           bcc (B 2);
           Jmp (F 4);
         Lab 3;
           mov AR1 AR0;
           kuser_cmpxchg;
           bcc (B 2);
           li AR0 1;
         Lab 4 ]
       (fun f => f Dst = a /\ opnd 32 32 old (f Old) /\ opnd 32 32 new (f New))
       (fun f => ar_ret (low 32 (f Out)) (f AR0)) [Out; AR0; AR1; AR3; AR4; AR5; FZ; FC].
(* arm_linux.rs:240-287 atomic_swap (sub-word); val is zero_extend-ed *)
Definition al_swap_sub_fn (e : endian) (n a v : Z) : fn Z :=
  let '(dst, shift, mask) := create_sub_word_mask_values A_arm e 32 32 n a in
  mkfn [ lsl Val Val Shift;
         Lab 2;
           Ld 4 XZ plain Out Dst 0;
           mov AR0 Out;
           and_ AR1 AR0 MaskN;
           or_ AR1 AR1 Val;
           kuser_cmpxchg;
           bcc (B 2);
         lsr Out Out Shift ]
       (fun f => f Dst = dst /\ f Shift = shift /\ f MaskN = not32 mask /\ f Val = v)
       (fun f => Some (low (8 * n) (f Out))) [Val; Out; AR0; AR1; AR3; AR4; AR5; FZ; FC].
(* arm_linux.rs:288-353 atomic_compare_exchange (sub-word); old and new are zero_extend-ed *)
Definition al_cas_sub_fn (e : endian) (n a old new : Z) : fn (Z * bool) :=
  let '(dst, shift, mask) := create_sub_word_mask_values A_arm e 32 32 n a in
  mkfn [ lsl Old Old Shift;
         lsl New New Shift;
         Lab 2;
           Ld 4 XZ plain AR0 Dst 0;
           and_ Out AR0 Mask;
           cmpz 32 Out Old;
           bne_z (F 3);
           mvn AR1 Mask;
           and_ AR1 AR0 AR1;
           or_ AR1 AR1 New;
           kuser_cmpxchg;
           bcc (B 2);
           Jmp (F 4);
         Lab 3;
           mov AR1 AR0;
           kuser_cmpxchg;
           bcc (B 2);
           li AR0 1;
         Lab 4;
         lsr Out Out Shift ]
       (fun f => f Dst = dst /\ f Shift = shift /\ f Mask = mask /\ f Old = old /\ f New = new)
       (fun f => ar_ret (low (8 * n) (f Out)) (f AR0)) [Old; New; Out; AR0; AR1; AR3; AR4; AR5; FZ; FC].

(* ---- 64-bit ---- *)
(* the buffer `val`/`new` holds [v] *)
Definition al_buf (e : endian) (v : Z) (f : regs) : Prop := f XC = half1 e 32 v /\ f XD = half2 e 32 v.
(* arm_linux.rs:366-402 atomic_load: writes back the value it read *)
Definition al_load64_fn (e : endian) (po a : Z) : fn Z :=
  mkfn [ Lab 2;
           Ld 4 XZ plain AR0 Dst 0;
           Ld 4 XZ plain AR3 Dst 4;
           mov XA AR0;            (* str r0, [r1] *)
           mov XB AR3;            (* str r3, [r1, #4] *)
           mov AR0 AR1;
           kuser_cmpxchg64 e po;
           bcc (B 2) ]
       (fun f => f Dst = a /\ f AR1 = po) (fun f => Some (halves e 32 (f XA) (f XB)))
       [XA; XB; AR0; AR3; AR5; FZ; FC].
(* arm_linux.rs:403-438 atomic_store *)
Definition al_store64_fn (e : endian) (po a v : Z) : fn unit :=
  mkfn [ Lab 2;
           Ld 4 XZ plain AR0 Dst 0;
           Ld 4 XZ plain AR3 Dst 4;
           mov XA AR0;            (* str r0, [out] *)
           mov XB AR3;            (* str r3, [out, #4] *)
           mov AR0 Out;
           kuser_cmpxchg64 e po;
           bcc (B 2) ]
       (fun f => f Dst = a /\ f Out = po /\ f AR1 <> po /\ al_buf e v f) (fun f => Some tt)
       [XA; XB; AR0; AR3; AR5; FZ; FC].
(* arm_linux.rs:439-478 atomic_swap *)
Definition al_swap64_fn (e : endian) (po a v : Z) : fn Z :=
  mkfn [ Lab 2;
           Ld 4 XZ plain AR0 Dst 0;
           Ld 4 XZ plain AR3 Dst 4;
           mov XA AR0;
           mov XB AR3;
           mov AR0 Out;
           kuser_cmpxchg64 e po;
           bcc (B 2) ]
       (fun f => f Dst = a /\ f Out = po /\ f AR1 <> po /\ al_buf e v f) (fun f => Some (halves e 32 (f XA) (f XB)))
       [XA; XB; AR0; AR3; AR5; FZ; FC].
(* arm_linux.rs:479-542 atomic_compare_exchange; here [New] and [Out] are the pointers `new`, `out_ptr` *)
Definition al_cas64_fn (e : endian) (po a old new : Z) : fn (Z * bool) :=
  mkfn [ Lab 2;
           Ld 4 XZ plain AR0 Dst 0;
           Ld 4 XZ plain AR3 Dst 4;
           mov XA AR0;
           mov XB AR3;
           xor_ AR0 AR0 Old;
           xor_ AR3 AR3 OldHi;
           orrs AR0 AR0 AR3;
           bne_z (F 3);
           mov AR0 Out;
           mov AR1 New;
           kuser_cmpxchg64 e po;
           bcc (B 2);
           Jmp (F 4);
         Lab 3;
           mov AR0 Out;
           mov AR1 Out;
           kuser_cmpxchg64 e po;
           bcc (B 2);
           li AR0 1;
         Lab 4 ]
       (fun f => f Dst = a /\ f Out = po /\ f New <> po /\ al_buf e new f /\ ar_pair e old Old OldHi f)
       (fun f => ar_ret (halves e 32 (f XA) (f XB)) (f AR0)) [XA; XB; AR0; AR1; AR3; AR5; FZ; FC].

(* arm_linux.rs:38-41, 550-558 assert_has_kuser_cmpxchg64: [ver] = what kuser_helper_version() reads *)
Definition assert_has_kuser_cmpxchg64 (ver : Z) : res unit := if ver <? 5 then Panic else Ret tt.
(* the check made at the start of every operation on an [n]-byte type: arm_linux.rs:374, 411, 449, 490 (64-bit types only) *)
Definition al_gate (ver n : Z) : res unit := if n =? 8 then assert_has_kuser_cmpxchg64 ver else Ret tt.

(* ---- which implementation a type gets: arm_linux.rs:355-363, 544-545.  [po]: address of the stack buffer ---- *)
Definition al_sub (n : Z) : bool := (n =? 1) || (n =? 2).
Definition al_load (e : endian) (po n : Z) (o : ordering) (a : Z) : impl (fn Z) :=
  if ar_word n then with_table (al_load_tbl o) (al_load_fn n a) else if n =? 8 then Impl (al_load64_fn e po a) else NoImpl.
Definition al_store (e : endian) (po n : Z) (o : ordering) (a v : Z) : impl (fn unit) :=
  if ar_word n then with_table (al_store_tbl o) (al_store_fn n a v) else if n =? 8 then Impl (al_store64_fn e po a v) else NoImpl.
Definition al_swap (e : endian) (po n : Z) (o : ordering) (a v : Z) : impl (fn Z) :=
  if al_sub n then Impl (al_swap_sub_fn e n a v) else if n =? 4 then Impl (al_swap_fn a v)
  else if n =? 8 then Impl (al_swap64_fn e po a v) else NoImpl.
(* no atomic_compare_exchange_weak: raw.rs default = strong *)
Definition al_cas (e : endian) (po n : Z) (success failure : ordering) (a old new : Z) : impl (fn (Z * bool)) :=
  if al_sub n then Impl (al_cas_sub_fn e n a old new) else if n =? 4 then Impl (al_cas_fn a old new)
  else if n =? 8 then Impl (al_cas64_fn e po a old new) else NoImpl.
