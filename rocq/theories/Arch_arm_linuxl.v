(* src/arch_legacy/arm_linux.rs; val, old, new as operands: the register holds the address of the private buffer and is overwritten by the value;
   out_tmp = [Out], out = [OutP] (r0 = AR0, r1 = AR1, r2 = Dst, r3 = AR3, ip = AR4, lr = AR5 as in Arch_arm_linux.v) *)
From Verif Require Export Arch_arml Arch_arm_linux.
From Verif Require Import Sub32.

(* blx! (43-55): see [kuser_cmpxchg]; order tables of atomic_load (71-103) = [al_load_tbl], of atomic_store (138-156) = [al_store_tbl] *)
(* 57-106 atomic_load *)
Definition alg_load_fn (b : bufs) (n a : Z) (t : fence) : fn Z :=
  mkfnl [ Ld n XZ plain Out Src 0; Fence t; pst (b_out b) n OutB Out OutP ] (fun f => f Src = a /\ f OutP = b_out b) (fun f => Some (f OutB)) [Out; OutP; OutB; AR5] [Out].
(* 107-160 atomic_store *)
Definition alg_store_fn (b : bufs) (n a v : Z) (t : fence * fence) : fn unit :=
  mkfnl [ pld (b_val b) v Val AR1; Fence (snd t); St n plain Val Dst 0; Fence (fst t) ]
       (fun f => f Dst = a /\ f AR1 = b_val b) (fun f => Some tt) [Dst; Val; AR5] [Val].
(* 164-203 atomic_swap (32-bit) *)
Definition alg_swap_fn (b : bufs) (a v : Z) : fn Z :=
  mkfn [ pld (b_val b) v AR1 AR1;
         Lab 2;
           Ld 4 XZ plain AR0 Dst 0;
           mov Out AR0;
           kuser_cmpxchg;
           cmp0 AR0;
           bne_z (B 2);
         pst (b_out b) 4 OutB Out OutP ]
       (fun f => f Dst = a /\ f AR1 = b_val b /\ f OutP = b_out b) (fun f => Some (f OutB)) [Out; OutB; AR0; AR1; AR3; AR4; AR5; FZ; FC].
(* 204-265 atomic_compare_exchange (32-bit) *)
Definition alg_cas_fn (b : bufs) (a old new : Z) : fn (Z * bool) :=
  mkfn [ pld (b_old b) old Old Old;
         pld (b_new b) new New New;
         Lab 2;
           Ld 4 XZ plain AR0 Dst 0;
           mov Out AR0;
           cmpz 32 AR0 Old;
           bne_z (F 3);
           mov AR1 New;
           kuser_cmpxchg;
           cmp0 AR0;
           bne_z (B 2);
           Jmp (F 4);
         Lab 3;
           mov AR1 AR0;
           kuser_cmpxchg;
           cmp0 AR0;
           bne_z (B 2);
           li AR0 1;
         Lab 4;
         pst (b_out b) 4 OutB Out OutP ]
       (fun f => f Dst = a /\ f Old = b_old b /\ f New = b_new b /\ f OutP = b_out b)
       (fun f => ar_ret (f OutB) (f AR0)) [Old; New; Out; OutB; AR0; AR1; AR3; AR4; AR5; FZ; FC].
(* 271-322 atomic_swap (sub-word) *)
Definition alg_swap_sub_fn (e : endian) (b : bufs) (n a v : Z) : fn Z :=
  let '(dst, shift, mask) := create_sub_word_mask_values A_arm e 32 32 n a in
  mkfn [ pld (b_val b) v Val Val;
         lsl Val Val Shift;
         and_ Val Val Mask;
         Lab 2;
           Ld 4 XZ plain AR0 Dst 0;
           mov Out AR0;
           and_ AR1 AR0 MaskN;
           or_ AR1 AR1 Val;
           kuser_cmpxchg;
           cmp0 AR0;
           bne_z (B 2);
         lsr Out Out Shift;
         pst (b_out b) n OutB Out OutP ]
       (fun f => f Dst = dst /\ f Shift = shift /\ f Mask = mask /\ f MaskN = not32 mask /\ f Val = b_val b /\ f OutP = b_out b)
       (fun f => Some (f OutB)) [Val; Out; OutB; AR0; AR1; AR3; AR4; AR5; FZ; FC].
(* 323-398 atomic_compare_exchange (sub-word) *)
Definition alg_cas_sub_fn (e : endian) (b : bufs) (n a old new : Z) : fn (Z * bool) :=
  let '(dst, shift, mask) := create_sub_word_mask_values A_arm e 32 32 n a in
  mkfn [ pld (b_old b) old Old Old;
         pld (b_new b) new New New;
         lsl Old Old Shift;
         lsl New New Shift;
         and_ Old Old Mask;
         and_ New New Mask;
         Lab 2;
           Ld 4 XZ plain AR0 Dst 0;
           and_ Out AR0 Mask;
           cmpz 32 Out Old;
           bne_z (F 3);
           mvn AR1 Mask;
           and_ AR1 AR0 AR1;
           or_ AR1 AR1 New;
           kuser_cmpxchg;
           cmp0 AR0;
           bne_z (B 2);
           Jmp (F 4);
         Lab 3;
           mov AR1 AR0;
           kuser_cmpxchg;
           cmp0 AR0;
           bne_z (B 2);
           li AR0 1;
         Lab 4;
         lsr Out Out Shift;
         pst (b_out b) n OutB Out OutP ]
       (fun f => f Dst = dst /\ f Shift = shift /\ f Mask = mask /\ f Old = b_old b /\ f New = b_new b /\ f OutP = b_out b)
       (fun f => ar_ret (f OutB) (f AR0)) [Old; New; Out; OutB; AR0; AR1; AR3; AR4; AR5; FZ; FC].

(* ---- 64-bit: the helper dereferences the addresses of the private buffers, see [al_deref] ---- *)
(* 412-447 atomic_load *)
Definition alg_load64_fn (e : endian) (b : bufs) (a : Z) : fn Z :=
  mkfn [ Lab 2;
           Ld 4 XZ plain AR0 Dst 0;
           Ld 4 XZ plain AR3 Dst 4;
           mov XA AR0;
           mov XB AR3;
           mov AR0 AR1;
           kuser_cmpxchg64 e (b_out b);
           cmp0 AR0;
           bne_z (B 2) ]
       (fun f => f Dst = a /\ f AR1 = b_out b) (fun f => Some (halves e 32 (f XA) (f XB)))
       [XA; XB; AR0; AR3; AR5; FZ; FC].
(* 448-484 atomic_store; [Out] = out_tmp.as_mut_ptr() *)
Definition alg_store64_fn (e : endian) (b : bufs) (a v : Z) : fn unit :=
  mkfn [ Lab 2;
           Ld 4 XZ plain AR0 Dst 0;
           Ld 4 XZ plain AR3 Dst 4;
           mov XA AR0;
           mov XB AR3;
           mov AR0 Out;
           kuser_cmpxchg64 e (b_out b);
           cmp0 AR0;
           bne_z (B 2) ]
       (fun f => f Dst = a /\ f Out = b_out b /\ f AR1 = b_val b /\ al_buf e v f) (fun f => Some tt)
       [XA; XB; AR0; AR3; AR5; FZ; FC].
(* 485-523 atomic_swap *)
Definition alg_swap64_fn (e : endian) (b : bufs) (a v : Z) : fn Z :=
  mkfn [ Lab 2;
           Ld 4 XZ plain AR0 Dst 0;
           Ld 4 XZ plain AR3 Dst 4;
           mov XA AR0;
           mov XB AR3;
           mov AR0 Out;
           kuser_cmpxchg64 e (b_out b);
           cmp0 AR0;
           bne_z (B 2) ]
       (fun f => f Dst = a /\ f Out = b_out b /\ f AR1 = b_val b /\ al_buf e v f) (fun f => Some (halves e 32 (f XA) (f XB)))
       [XA; XB; AR0; AR3; AR5; FZ; FC].
(* 524-589 atomic_compare_exchange; old_lo/old_hi = [Old]/[OldHi]; [New] and [Out] are the pointers `new`, `out_ptr` *)
Definition alg_cas64_fn (e : endian) (b : bufs) (a old new : Z) : fn (Z * bool) :=
  mkfn [ pld (b_old b) (half1 e 32 old) Old OldHi;
         pld (b_old b) (half2 e 32 old) OldHi OldHi;      (* [old_hi, #4] *)
         Lab 2;
           Ld 4 XZ plain AR0 Dst 0;
           Ld 4 XZ plain AR3 Dst 4;
           mov XA AR0;
           mov XB AR3;
           xor_ AR0 AR0 Old;
           xor_ AR3 AR3 OldHi;
           orrs AR0 AR0 AR3;
           bne_z (F 3);
           mov AR0 Out;
           mov AR1 New;
           kuser_cmpxchg64 e (b_out b);
           cmp0 AR0;
           bne_z (B 2);
           Jmp (F 4);
         Lab 3;
           mov AR0 Out;
           mov AR1 Out;
           kuser_cmpxchg64 e (b_out b);
           cmp0 AR0;
           bne_z (B 2);
           li AR0 1;
         Lab 4 ]
       (fun f => f Dst = a /\ f Out = b_out b /\ f New = b_new b /\ al_buf e new f /\ f OldHi = b_old b)
       (fun f => ar_ret (halves e 32 (f XA) (f XB)) (f AR0)) [XA; XB; Old; OldHi; AR0; AR1; AR3; AR5; FZ; FC].

(* assert_has_kuser_cmpxchg64 (598-606; called at 419, 456, 493, 534): [al_gate] *)
(* ---- which implementation a type gets: 401-408, 592-593 ---- *)
Definition alg_load (e : endian) (b : bufs) (n : Z) (o : ordering) (a : Z) : impl (fn Z) :=
  if ar_word n then with_table (al_load_tbl o) (alg_load_fn b n a) else if n =? 8 then Impl (alg_load64_fn e b a) else NoImpl.
Definition alg_store (e : endian) (b : bufs) (n : Z) (o : ordering) (a v : Z) : impl (fn unit) :=
  if ar_word n then with_table (al_store_tbl o) (alg_store_fn b n a v) else if n =? 8 then Impl (alg_store64_fn e b a v) else NoImpl.
Definition alg_swap (e : endian) (b : bufs) (n : Z) (o : ordering) (a v : Z) : impl (fn Z) :=
  if al_sub n then Impl (alg_swap_sub_fn e b n a v) else if n =? 4 then Impl (alg_swap_fn b a v)
  else if n =? 8 then Impl (alg_swap64_fn e b a v) else NoImpl.
(* no atomic_compare_exchange_weak: raw.rs default = strong *)
Definition alg_cas (e : endian) (b : bufs) (n : Z) (success failure : ordering) (a old new : Z) : impl (fn (Z * bool)) :=
  if al_sub n then Impl (alg_cas_sub_fn e b n a old new) else if n =? 4 then Impl (alg_cas_fn b a old new)
  else if n =? 8 then Impl (alg_cas64_fn e b a old new) else NoImpl.
