(* src/arch/armv8.rs (Armv8 AArch32 and Armv8-M; either endianness) *)
From Verif Require Export ArchCommon Arch_arm.

(* compile-time configuration: endianness, target_feature "mclass" *)
Record a8_cfg := { a8_e : endian; a8_mclass : bool }.

(* armv8.rs:43-54 atomic_rmw!($op, $order): ("r" / "a", "r" / "l") *)
Definition a8_rmw_tbl (o : ordering) : option (bool * bool) :=
  match o with
  | Relaxed => Some (false, false)
  | Acquire => Some (true, false)
  | Release => Some (false, true)
  | AcqRel | SeqCst => Some (true, true)
  end.
Definition a8_ld (a : bool) := mkacc a false false.
Definition a8_st (l : bool) := mkacc false l false.
(* armv8.rs:95-100, 300-305 order table of atomic_load *)
Definition a8_load_tbl (o : ordering) : option bool :=
  match o with
  | Relaxed => Some false
  | Acquire | SeqCst => Some true
  | _ => None end.
(* armv8.rs:126-131 order table of atomic_store *)
Definition a8_store_tbl (o : ordering) : option bool :=
  match o with
  | Relaxed => Some false
  | Release | SeqCst => Some true
  | _ => None end.

(* ISA: stlex / strex and their double-word forms write 0 on success, 1 on failure *)
Definition a8_stex (n : Z) (l : bool) (rst rv ra : reg) := SC n (a8_st l) rst 0 (fun _ => 1) rv ra.
Definition a8_ldexd (a : bool) (r1 r2 ra : reg) := LLp true 4 (a8_ld a) r1 r2 ra.
Definition a8_stexd (l : bool) (rst r1 r2 ra : reg) := SCp 4 (a8_st l) rst 0 (fun _ => 1) r1 r2 ra.
(* armv8.rs:56-69 s!("mov", "{r}, #1"): `movs` on M-class also sets Z := 0 *)
Definition a8_mov1 (m : bool) (r : reg) := Op2 r FZ (fun _ l => match l with [z] => (1, if m then 0 else z) | _ => (0, 0) end) [FZ].

(* armv8.rs:74-104 atomic_load *)
Definition a8_load_fn (n a : Z) (t : bool) : fn Z :=
  mkfnl [ Ld n XZ (a8_ld t) Out Src 0 ] (fun f => f Src = a) (fun f => Some (low (8 * n) (f Out))) [Out] [Out].
(* armv8.rs:105-134 atomic_store *)
Definition a8_store_fn (n a v : Z) (t : bool) : fn unit :=
  mkfn [ St n (a8_st t) Val Dst 0 ] (fun f => f Dst = a /\ opnd 32 (8 * n) v (f Val)) (fun f => Some tt) [].
(* armv8.rs:135-168 atomic_swap *)
Definition a8_swap_fn (n a v : Z) (t : bool * bool) : fn Z :=
  mkfn [ Lab 2;
           LL n XZ (a8_ld (fst t)) Out Dst;
           a8_stex n (snd t) R Val Dst;
           cmp0 R;
           bne_z (B 2) ]
       (fun f => f Dst = a /\ opnd 32 (8 * n) v (f Val)) (fun f => Some (low (8 * n) (f Out))) [Val; Out; R; FZ; FC].
(* armv8.rs:169-215 atomic_compare_exchange *)
Definition a8_cas_fn (m : bool) (n a old new : Z) (t : bool * bool) : fn (Z * bool) :=
  mkfn [ Lab 2;
           LL n XZ (a8_ld (fst t)) Out Dst;
           cmpz 32 Out Old;
           bne_z (F 3);
           a8_stex n (snd t) R New Dst;
           cmp0 R;
           bne_z (B 2);
           Jmp (F 4);
         Lab 3;
           Clrex;
           a8_mov1 m R;
         Lab 4 ]
       (fun f => f Dst = a /\ f Old = old /\ opnd 32 (8 * n) new (f New))
       (fun f => ar_ret (low (8 * n) (f Out)) (f R)) [New; Out; R; FZ; FC].
(* armv8.rs:216-260 atomic_compare_exchange_weak *)
Definition a8_casw_fn (m : bool) (n a old new : Z) (t : bool * bool) : fn (Z * bool) :=
  mkfn [ LL n XZ (a8_ld (fst t)) Out Dst;
         cmpz 32 Out Old;
         bne_z (F 3);
         a8_stex n (snd t) R New Dst;
         Jmp (F 4);
         Lab 3;
           Clrex;
           a8_mov1 m R;
         Lab 4 ]
       (fun f => f Dst = a /\ f Old = old /\ opnd 32 (8 * n) new (f New))
       (fun f => ar_ret (low (8 * n) (f Out)) (f R)) [New; Out; R; FZ; FC].
(* armv8.rs:275-309 atomic_load (64-bit) *)
Definition a8_load64_fn (c : a8_cfg) (a : Z) (t : bool) : fn Z :=
  mkfnl [ a8_ldexd t Out OutHi Src; Clrex ] (fun f => f Src = a)
       (fun f => Some (ar_join (a8_e c) (f Out) (f OutHi))) [Out; OutHi] [Out; OutHi].
(* armv8.rs:310-346 atomic_store (64-bit); r4/r5 = Tmp/TmpHi *)
Definition a8_store64_fn (c : a8_cfg) (a v : Z) (t : bool * bool) : fn unit :=
  mkfn [ Lab 2;
           a8_ldexd (fst t) Tmp TmpHi Dst;
           a8_stexd (snd t) Tmp Val ValHi Dst;
           cmp0 Tmp;
           bne_z (B 2) ]
       (fun f => f Dst = a /\ ar_pair (a8_e c) v Val ValHi f) (fun f => Some tt) [Val; ValHi; Tmp; TmpHi; FZ; FC].
(* armv8.rs:347-386 atomic_swap (64-bit) *)
Definition a8_swap64_fn (c : a8_cfg) (a v : Z) (t : bool * bool) : fn Z :=
  mkfn [ Lab 2;
           a8_ldexd (fst t) Out OutHi Dst;
           a8_stexd (snd t) R Val ValHi Dst;
           cmp0 R;
           bne_z (B 2) ]
       (fun f => f Dst = a /\ ar_pair (a8_e c) v Val ValHi f)
       (fun f => Some (ar_join (a8_e c) (f Out) (f OutHi))) [Val; ValHi; Out; OutHi; R; FZ; FC].
(* armv8.rs:387-444 atomic_compare_exchange (64-bit) *)
Definition a8_cas64_fn (c : a8_cfg) (a old new : Z) (t : bool * bool) : fn (Z * bool) :=
  mkfn [ Lab 2;
           a8_ldexd (fst t) Out OutHi Dst;
           xor_ Tmp OutHi OldHi;
           xor_ R Out Old;
           orrs R R Tmp;
           bne_z (F 3);
           a8_stexd (snd t) R New NewHi Dst;
           cmp0 R;
           bne_z (B 2);
           Jmp (F 4);
         Lab 3;
           Clrex;
           a8_mov1 (a8_mclass c) R;
         Lab 4 ]
       (fun f => f Dst = a /\ ar_pair (a8_e c) old Old OldHi f /\ ar_pair (a8_e c) new New NewHi f)
       (fun f => ar_ret (ar_join (a8_e c) (f Out) (f OutHi)) (f R)) [R; Tmp; Out; OutHi; New; NewHi; FZ; FC].
(* armv8.rs:445-499 atomic_compare_exchange_weak (64-bit) *)
Definition a8_casw64_fn (c : a8_cfg) (a old new : Z) (t : bool * bool) : fn (Z * bool) :=
  mkfn [ a8_ldexd (fst t) Out OutHi Dst;
         xor_ Tmp OutHi OldHi;
         xor_ R Out Old;
         orrs R R Tmp;
         bne_z (F 3);
         a8_stexd (snd t) R New NewHi Dst;
         Jmp (F 4);
         Lab 3;
           Clrex;
           a8_mov1 (a8_mclass c) R;
         Lab 4 ]
       (fun f => f Dst = a /\ ar_pair (a8_e c) old Old OldHi f /\ ar_pair (a8_e c) new New NewHi f)
       (fun f => ar_ret (ar_join (a8_e c) (f Out) (f OutHi)) (f R)) [R; Tmp; Out; OutHi; New; NewHi; FZ; FC].

(* ---- which implementation a type gets: armv8.rs:263-270, 502-503 ---- *)
Definition a8_dw (c : a8_cfg) (n : Z) : bool := (n =? 8) && negb (a8_mclass c).
Definition a8_load (c : a8_cfg) (n : Z) (o : ordering) (a : Z) : impl (fn Z) :=
  if ar_word n then with_table (a8_load_tbl o) (a8_load_fn n a)
  else if a8_dw c n then with_table (a8_load_tbl o) (a8_load64_fn c a) else NoImpl.
(* the 64-bit store uses atomic_rmw! (armv8.rs:343) *)
Definition a8_store (c : a8_cfg) (n : Z) (o : ordering) (a v : Z) : impl (fn unit) :=
  if ar_word n then with_table (a8_store_tbl o) (a8_store_fn n a v)
  else if a8_dw c n then with_table (a8_rmw_tbl o) (a8_store64_fn c a v) else NoImpl.
Definition a8_swap (c : a8_cfg) (n : Z) (o : ordering) (a v : Z) : impl (fn Z) :=
  if ar_word n then with_table (a8_rmw_tbl o) (a8_swap_fn n a v)
  else if a8_dw c n then with_table (a8_rmw_tbl o) (a8_swap64_fn c a v) else NoImpl.
Definition a8_cas (c : a8_cfg) (n : Z) (success failure : ordering) (a old new : Z) : impl (fn (Z * bool)) :=
  let order := upgrade_success_ordering success failure in
  if ar_word n then with_table (a8_rmw_tbl order) (a8_cas_fn (a8_mclass c) n a old new)
  else if a8_dw c n then with_table (a8_rmw_tbl order) (a8_cas64_fn c a old new) else NoImpl.
Definition a8_casw (c : a8_cfg) (n : Z) (success failure : ordering) (a old new : Z) : impl (fn (Z * bool)) :=
  let order := upgrade_success_ordering success failure in
  if ar_word n then with_table (a8_rmw_tbl order) (a8_casw_fn (a8_mclass c) n a old new)
  else if a8_dw c n then with_table (a8_rmw_tbl order) (a8_casw64_fn c a old new) else NoImpl.
