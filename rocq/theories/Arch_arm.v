(* src/arch/arm.rs (Armv6, Armv7; either endianness) *)
From Verif Require Export ArchCommon.

(* compile-time configuration: endianness, target_feature "v7", target_feature "mclass" *)
Record ar_cfg := { ar_e : endian; ar_v7 : bool; ar_mclass : bool }.

(* arm.rs:44-87 dmb!(): `dmb ish`, `dmb sy`, `mcr p15, #0, {zero}, c7, c10, #5` or `blx {kuser_memory_barrier}` depending on
   target features and OS (asm_use_dmb!, arm.rs:110-166, adds the operands `zero`, or `kuser_memory_barrier` and lr, all declared
   as clobbered).  Simplification: all four are the same barrier [FDmb] and write no modelled register. *)
Definition dmb : fence := FDmb.
(* arm.rs:89-108 clrex!(): the empty string before Armv7 *)
Definition ar_clrex (c : ar_cfg) : instr := ClrexIf (ar_v7 c).

(* ISA: ldrex{b,h,} zero-extend; strex writes 0 on success and 1 on failure; cmp r, #0; eor; orrs *)
Definition ar_strex (n : Z) (rst rv ra : reg) := SC n plain rst 0 (fun _ => 1) rv ra.
Definition ar_ldrexd (r1 r2 ra : reg) := LLp true 4 plain r1 r2 ra.
Definition ar_strexd (rst r1 r2 ra : reg) := SCp 4 plain rst 0 (fun _ => 1) r1 r2 ra.
Definition cmp0 (r : reg) := Op FZ (op1 (fun x => b2z (x =? 0))) [r].
Definition orrs (r a b : reg) := Op2 r FZ (fun _ l => match l with [x; y] => (Z.lor x y, b2z (Z.lor x y =? 0)) | _ => (0, 0) end) [a; b].

(* arm.rs:193-198, 570-575 order table of atomic_load *)
Definition ar_load_tbl (o : ordering) : option fence :=
  match o with
  | Relaxed => Some FNone
  | Acquire | SeqCst => Some dmb
  | _ => None end.
(* arm.rs:226-231, 615-620 order table of atomic_store: ($acquire, $release) *)
Definition ar_store_tbl (o : ordering) : option (fence * fence) :=
  match o with
  | Relaxed => Some (FNone, FNone)
  | Release => Some (FNone, dmb)
  | SeqCst => Some (dmb, dmb)
  | _ => None end.
(* arm.rs:270-280, 661-669 order table of atomic_swap: ($acquire, $release) *)
Definition ar_swap_tbl (o : ordering) : option (fence * fence) :=
  match o with
  | Relaxed => Some (FNone, FNone)
  | Acquire => Some (dmb, FNone)
  | Release => Some (FNone, dmb)
  | AcqRel | SeqCst => Some (dmb, dmb)
  end.
(* the three compare_exchange macros: cmpxchg_store_relaxed!(acquire_success, acquire_failure),
   cmpxchg_release!(acquire_failure), cmpxchg_acqrel!(acquire_failure) *)
Inductive ar_cas_shape := CRlx (fs ff : fence) | CRel (ff : fence) | CAcqRel (ff : fence).
(* arm.rs:393-408, 808-819 order table of atomic_compare_exchange *)
Definition ar_cas_tbl (s f : ordering) : option ar_cas_shape :=
  match s, f with
  | Relaxed, Relaxed => Some (CRlx FNone FNone)
  | Relaxed, (Acquire | SeqCst) => Some (CRlx FNone dmb)
  | Acquire, Relaxed => Some (CRlx dmb FNone)
  | Acquire, (Acquire | SeqCst) => Some (CRlx dmb dmb)
  | Release, Relaxed => Some (CRel FNone)
  | Release, (Acquire | SeqCst) => Some (CRel dmb)
  | (AcqRel | SeqCst), Relaxed => Some (CAcqRel FNone)
  | (AcqRel | SeqCst), _ => Some (CAcqRel dmb)
  | _, _ => None
  end.
(* the three compare_exchange_weak macros: cmpxchg_weak!(acquire, release),
   cmpxchg_weak_fail_load_relaxed!(release), cmpxchg_weak_success_load_relaxed!(release) *)
Inductive ar_casw_shape := W (fa fr : fence) | WFailRlx (fr : fence) | WSuccRlx (fr : fence).
(* arm.rs:508-519, 945-956 order table of atomic_compare_exchange_weak *)
Definition ar_casw_tbl (s f : ordering) : option ar_casw_shape :=
  match s, f with
  | Relaxed, Relaxed => Some (W FNone FNone)
  | Relaxed, (Acquire | SeqCst) => Some (WSuccRlx FNone)
  | Acquire, Relaxed => Some (WFailRlx FNone)
  | Acquire, (Acquire | SeqCst) => Some (W dmb FNone)
  | Release, Relaxed => Some (W FNone dmb)
  | Release, (Acquire | SeqCst) => Some (WSuccRlx dmb)
  | (AcqRel | SeqCst), Relaxed => Some (WFailRlx dmb)
  | (AcqRel | SeqCst), _ => Some (W dmb dmb)
  | _, _ => None
  end.
(* assert_unchecked(r == 0 || r == 1); (out, r == 0) *)
Definition ar_ret (out r : Z) : option (Z * bool) :=
  if (r =? 0) || (r =? 1) then Some (out, r =? 0) else None.

(* arm.rs:171-202 atomic_load *)
Definition ar_load_fn (n a : Z) (t : fence) : fn Z :=
  mkfnl [ Ld n XZ plain Out Src 0; Fence t ] (fun f => f Src = a) (fun f => Some (low (8 * n) (f Out))) [Out] [Out].
(* arm.rs:203-234 atomic_store *)
Definition ar_store_fn (n a v : Z) (t : fence * fence) : fn unit :=
  mkfn [ Fence (snd t); St n plain Val Dst 0; Fence (fst t) ]
       (fun f => f Dst = a /\ opnd 32 (8 * n) v (f Val)) (fun f => Some tt) [].
(* arm.rs:235-284 atomic_swap *)
Definition ar_swap_fn (n a v : Z) (t : fence * fence) : fn Z :=
  mkfn [ Fence (snd t);
         Lab 2;
           LL n XZ plain Out Dst;
           ar_strex n R Val Dst;
           cmp0 R;
           bne_z (B 2);
         Fence (fst t) ]
       (fun f => f Dst = a /\ opnd 32 (8 * n) v (f Val)) (fun f => Some (low (8 * n) (f Out))) [Val; Out; R; FZ; FC].
(* arm.rs:285-413 atomic_compare_exchange; old is passed through ZeroExtend::zero_extend *)
Definition ar_cas_fn (c : ar_cfg) (n a old new : Z) (t : ar_cas_shape) : fn (Z * bool) :=
  mkfn (match t with
        | CRlx fs ff =>
          [ Lab 2;
              LL n XZ plain Out Dst;
              cmpz 32 Out Old;
              bne_z (F 3);
              ar_strex n R New Dst;
              cmp0 R;
              bne_z (B 2);
              Fence fs;
              Jmp (F 4);
            Lab 3;
              li R 1;
              ar_clrex c;
              Fence ff;
            Lab 4 ]
        | CRel ff =>
          [ LL n XZ plain Out Dst;
            cmpz 32 Out Old;
            bne_z (F 3);
            Fence dmb;
            Lab 2;
              ar_strex n R New Dst;
              cmp0 R;
              beq_z (F 4);
              LL n XZ plain Out Dst;
              cmpz 32 Out Old;
              beq_z (B 2);
            Lab 3;
              li R 1;
              ar_clrex c;
              Fence ff;
            Lab 4 ]
        | CAcqRel ff =>
          [ LL n XZ plain Out Dst;
            cmpz 32 Out Old;
            bne_z (F 3);
            Fence dmb;
            Lab 2;
              ar_strex n R New Dst;
              cmp0 R;
              beq_z (F 4);
              LL n XZ plain Out Dst;
              cmpz 32 Out Old;
              beq_z (B 2);
            Lab 3;
              li R 1;
              ar_clrex c;
              Fence ff;
              Jmp (F 5);
            Lab 4;
              Fence dmb;
            Lab 5 ]
        end)
       (fun f => f Dst = a /\ f Old = old /\ opnd 32 (8 * n) new (f New))
       (fun f => ar_ret (low (8 * n) (f Out)) (f R)) [New; Out; R; FZ; FC].
(* arm.rs:414-526 atomic_compare_exchange_weak *)
Definition ar_casw_fn (c : ar_cfg) (n a old new : Z) (t : ar_casw_shape) : fn (Z * bool) :=
  mkfn (match t with
        | W fa fr =>
          [ LL n XZ plain Out Dst;
            cmpz 32 Out Old;
            bne_z (F 3);
            Fence fr;
            ar_strex n R New Dst;
            Jmp (F 4);
            Lab 3;
              li R 1;
              ar_clrex c;
            Lab 4;
            Fence fa ]
        | WFailRlx fr =>
          [ LL n XZ plain Out Dst;
            cmpz 32 Out Old;
            bne_z (F 3);
            Fence fr;
            ar_strex n R New Dst;
            cmp0 R;
            beq_z (F 4);
            Jmp (F 5);
            Lab 3;
              li R 1;
              ar_clrex c;
              Jmp (F 5);
            Lab 4;
              Fence dmb;
            Lab 5 ]
        | WSuccRlx fr =>
          [ LL n XZ plain Out Dst;
            cmpz 32 Out Old;
            bne_z (F 3);
            Fence fr;
            ar_strex n R New Dst;
            cmp0 R;
            beq_z (F 5);
            Jmp (F 4);
            Lab 3;
              li R 1;
              ar_clrex c;
            Lab 4;
              Fence dmb;
            Lab 5 ]
        end)
       (fun f => f Dst = a /\ f Old = old /\ opnd 32 (8 * n) new (f New))
       (fun f => ar_ret (low (8 * n) (f Out)) (f R)) [New; Out; R; FZ; FC].

(* ---- 64-bit (not M-class): prev_lo/prev_hi = Out/OutHi, val = Val/ValHi, old = Old/OldHi, new = New/NewHi ---- *)
Definition ar_join (e : endian) (lo hi : Z) : Z := pair_join A_arm e 32 lo hi.
Definition ar_pair (e : endian) (v : Z) (rl rh : reg) (f : regs) : Prop :=
  f rl = pair_lo A_arm e 32 v /\ f rh = pair_hi A_arm e 32 v.
(* arm.rs:544-579 atomic_load *)
Definition ar_load64_fn (c : ar_cfg) (a : Z) (t : fence) : fn Z :=
  mkfnl [ ar_ldrexd Out OutHi Src; ar_clrex c; Fence t ] (fun f => f Src = a)
       (fun f => Some (ar_join (ar_e c) (f Out) (f OutHi))) [Out; OutHi] [Out; OutHi].
(* arm.rs:580-623 atomic_store; r2/r3 = Val/ValHi, r4/r5 = Tmp/TmpHi *)
Definition ar_store64_fn (c : ar_cfg) (a v : Z) (t : fence * fence) : fn unit :=
  mkfn [ Fence (snd t);
         Lab 2;
           ar_ldrexd Tmp TmpHi Dst;
           ar_strexd Tmp Val ValHi Dst;
           cmp0 Tmp;
           bne_z (B 2);
         Fence (fst t) ]
       (fun f => f Dst = a /\ ar_pair (ar_e c) v Val ValHi f) (fun f => Some tt) [Val; ValHi; Tmp; TmpHi; FZ; FC].
(* arm.rs:624-672 atomic_swap *)
Definition ar_swap64_fn (c : ar_cfg) (a v : Z) (t : fence * fence) : fn Z :=
  mkfn [ Fence (snd t);
         Lab 2;
           ar_ldrexd Out OutHi Dst;
           ar_strexd R Val ValHi Dst;
           cmp0 R;
           bne_z (B 2);
         Fence (fst t) ]
       (fun f => f Dst = a /\ ar_pair (ar_e c) v Val ValHi f)
       (fun f => Some (ar_join (ar_e c) (f Out) (f OutHi))) [Val; ValHi; Out; OutHi; R; FZ; FC].
(* arm.rs:673-825 atomic_compare_exchange *)
Definition ar_cas64_fn (c : ar_cfg) (a old new : Z) (t : ar_cas_shape) : fn (Z * bool) :=
  mkfn (match t with
        | CRlx fs ff =>
          [ Lab 2;
              ar_ldrexd Out OutHi Dst;
              xor_ Tmp OutHi OldHi;
              xor_ R Out Old;
              orrs R R Tmp;
              bne_z (F 3);
              ar_strexd R New NewHi Dst;
              cmp0 R;
              bne_z (B 2);
              Fence fs;
              Jmp (F 4);
            Lab 3;
              li R 1;
              ar_clrex c;
              Fence ff;
            Lab 4 ]
        | CRel ff =>
          [ ar_ldrexd Out OutHi Dst;
            xor_ Tmp OutHi OldHi;
            xor_ R Out Old;
            orrs R R Tmp;
            bne_z (F 3);
            Fence dmb;
            Lab 2;
              ar_strexd R New NewHi Dst;
              cmp0 R;
              beq_z (F 4);
              ar_ldrexd Out OutHi Dst;
              xor_ Tmp OutHi OldHi;
              xor_ R Out Old;
              orrs R R Tmp;
              beq_z (B 2);
            Lab 3;
              li R 1;
              ar_clrex c;
              Fence ff;
            Lab 4 ]
        | CAcqRel ff =>
          [ ar_ldrexd Out OutHi Dst;
            xor_ Tmp OutHi OldHi;
            xor_ R Out Old;
            orrs R R Tmp;
            bne_z (F 3);
            Fence dmb;
            Lab 2;
              ar_strexd R New NewHi Dst;
              cmp0 R;
              beq_z (F 4);
              ar_ldrexd Out OutHi Dst;
              xor_ Tmp OutHi OldHi;
              xor_ R Out Old;
              orrs R R Tmp;
              beq_z (B 2);
            Lab 3;
              li R 1;
              ar_clrex c;
              Fence ff;
              Jmp (F 5);
            Lab 4;
              Fence dmb;
            Lab 5 ]
        end)
       (fun f => f Dst = a /\ ar_pair (ar_e c) old Old OldHi f /\ ar_pair (ar_e c) new New NewHi f)
       (fun f => ar_ret (ar_join (ar_e c) (f Out) (f OutHi)) (f R)) [R; Tmp; Out; OutHi; New; NewHi; FZ; FC].
(* arm.rs:826-962 atomic_compare_exchange_weak *)
Definition ar_casw64_fn (c : ar_cfg) (a old new : Z) (t : ar_casw_shape) : fn (Z * bool) :=
  mkfn (match t with
        | W fa fr =>
          [ ar_ldrexd Out OutHi Dst;
            xor_ Tmp OutHi OldHi;
            xor_ R Out Old;
            orrs R R Tmp;
            bne_z (F 3);
            Fence fr;
            ar_strexd R New NewHi Dst;
            Jmp (F 4);
            Lab 3;
              li R 1;
              ar_clrex c;
            Lab 4;
            Fence fa ]
        | WFailRlx fr =>
          [ ar_ldrexd Out OutHi Dst;
            xor_ Tmp OutHi OldHi;
            xor_ R Out Old;
            orrs R R Tmp;
            bne_z (F 3);
            Fence fr;
            ar_strexd R New NewHi Dst;
            cmp0 R;
            beq_z (F 4);
            Jmp (F 5);
            Lab 3;
              li R 1;
              ar_clrex c;
              Jmp (F 5);
            Lab 4;
              Fence dmb;
            Lab 5 ]
        | WSuccRlx fr =>
          [ ar_ldrexd Out OutHi Dst;
            xor_ Tmp OutHi OldHi;
            xor_ R Out Old;
            orrs R R Tmp;
            bne_z (F 3);
            Fence fr;
            ar_strexd R New NewHi Dst;
            cmp0 R;
            beq_z (F 5);
            Jmp (F 4);
            Lab 3;
              li R 1;
              ar_clrex c;
            Lab 4;
              Fence dmb;
            Lab 5 ]
        end)
       (fun f => f Dst = a /\ ar_pair (ar_e c) old Old OldHi f /\ ar_pair (ar_e c) new New NewHi f)
       (fun f => ar_ret (ar_join (ar_e c) (f Out) (f OutHi)) (f R)) [R; Tmp; Out; OutHi; New; NewHi; FZ; FC].

(* ---- which implementation a type gets: arm.rs:530-537, 966-967; swap/compare_exchange only if v7 or not M-class
   (arm.rs:235-238, 286-288), 64-bit only if not M-class ---- *)
Definition ar_word (n : Z) : bool := (n =? 1) || (n =? 2) || (n =? 4).
Definition ar_has_cas (c : ar_cfg) : bool := ar_v7 c || negb (ar_mclass c).
Definition ar_load (c : ar_cfg) (n : Z) (o : ordering) (a : Z) : impl (fn Z) :=
  if ar_word n then with_table (ar_load_tbl o) (ar_load_fn n a)
  else if (n =? 8) && negb (ar_mclass c) then with_table (ar_load_tbl o) (ar_load64_fn c a) else NoImpl.
Definition ar_store (c : ar_cfg) (n : Z) (o : ordering) (a v : Z) : impl (fn unit) :=
  if ar_word n then with_table (ar_store_tbl o) (ar_store_fn n a v)
  else if (n =? 8) && negb (ar_mclass c) then with_table (ar_store_tbl o) (ar_store64_fn c a v) else NoImpl.
Definition ar_swap (c : ar_cfg) (n : Z) (o : ordering) (a v : Z) : impl (fn Z) :=
  if ar_word n then if ar_has_cas c then with_table (ar_swap_tbl o) (ar_swap_fn n a v) else NoImpl
  else if (n =? 8) && negb (ar_mclass c) then with_table (ar_swap_tbl o) (ar_swap64_fn c a v) else NoImpl.
Definition ar_cas (c : ar_cfg) (n : Z) (success failure : ordering) (a old new : Z) : impl (fn (Z * bool)) :=
  if ar_word n then if ar_has_cas c then with_table (ar_cas_tbl success failure) (ar_cas_fn c n a old new) else NoImpl
  else if (n =? 8) && negb (ar_mclass c) then with_table (ar_cas_tbl success failure) (ar_cas64_fn c a old new) else NoImpl.
Definition ar_casw (c : ar_cfg) (n : Z) (success failure : ordering) (a old new : Z) : impl (fn (Z * bool)) :=
  if ar_word n then if ar_has_cas c then with_table (ar_casw_tbl success failure) (ar_casw_fn c n a old new) else NoImpl
  else if (n =? 8) && negb (ar_mclass c) then with_table (ar_casw_tbl success failure) (ar_casw64_fn c a old new) else NoImpl.
