(* src/arch_legacy/armv8.rs; val, old, new (addresses of the private buffers) = [AR1], [AR2], [AR3] where a separate register receives the value,
   [Val], [Old], [New] where the operand is `inout` and is overwritten by the value; out = [OutP]; tmp (the value read) = [Out] *)
From Verif Require Export Legacy Arch_armv8.

(* atomic_rmw! (41-51) = [a8_rmw_tbl]; s! (53-67): see [a8_mov1]; order tables of atomic_load (94-99, 347-352) = [a8_load_tbl],
   of atomic_store (127-132) = [a8_store_tbl] *)
(* ldrd / strd on a private buffer: the first register has the first four bytes *)
Definition arl_pldp (e : endian) (p v : Z) (r1 r2 ar : reg) := pldp p (half1 e 32 v) (half2 e 32 v) r1 r2 ar.
Definition arl_out (e : endian) (f : regs) : Z := halves e 32 (f OutB) (f OutBHi).

(* 71-103 atomic_load *)
Definition a8l_load_fn (b : bufs) (n a : Z) (t : bool) : fn Z :=
  mkfnl [ Ld n XZ (a8_ld t) Out Src 0; pst (b_out b) n OutB Out OutP ] (fun f => f Src = a /\ f OutP = b_out b) (fun f => Some (f OutB)) [Out; OutP; OutB] [Out].
(* 104-137 atomic_store *)
Definition a8l_store_fn (b : bufs) (n a v : Z) (t : bool) : fn unit :=
  mkfnl [ pld (b_val b) v Val AR1; St n (a8_st t) Val Dst 0 ] (fun f => f Dst = a /\ f AR1 = b_val b) (fun f => Some tt) [Dst; Val] [Val].
(* 138-180 atomic_swap *)
Definition a8l_swap_fn (b : bufs) (n a v : Z) (t : bool * bool) : fn Z :=
  mkfn [ pld (b_val b) v Val Val;
         Lab 2;
           LL n XZ (a8_ld (fst t)) Out Dst;
           a8_stex n (snd t) R Val Dst;
           cmp0 R;
           bne_z (B 2);
         pst (b_out b) n OutB Out OutP ]
       (fun f => f Dst = a /\ f Val = b_val b /\ f OutP = b_out b) (fun f => Some (f OutB)) [Val; Out; R; OutB; FZ; FC].
(* 181-241 atomic_compare_exchange *)
Definition a8l_cas_fn (m : bool) (b : bufs) (n a old new : Z) (t : bool * bool) : fn (Z * bool) :=
  mkfn [ pld (b_old b) old Old Old;
         pld (b_new b) new New New;
         Lab 2;
           LL n XZ (a8_ld (fst t)) Out Dst;
           cmpz 32 Out Old;
           bne_z (F 3);
           a8_stex n (snd t) R New Dst;
           cmp0 R;
           bne_z (B 2);
           Jmp (F 4);
         Lab 3;
           Clrex;
           a8_mov1 m R;
         Lab 4;
         pst (b_out b) n OutB Out OutP ]
       (fun f => f Dst = a /\ f Old = b_old b /\ f New = b_new b /\ f OutP = b_out b)
       (fun f => ar_ret (f OutB) (f R)) [Old; New; Out; R; OutB; FZ; FC].
(* 242-296 atomic_compare_exchange_weak *)
Definition a8l_casw_fn (m : bool) (b : bufs) (n a old new : Z) (t : bool * bool) : fn (Z * bool) :=
  mkfn [ pld (b_old b) old Old Old;
         pld (b_new b) new New New;
         LL n XZ (a8_ld (fst t)) Out Dst;
         cmpz 32 Out Old;
         bne_z (F 3);
         a8_stex n (snd t) R New Dst;
         Jmp (F 4);
         Lab 3;
           Clrex;
           a8_mov1 m R;
         Lab 4;
         pst (b_out b) n OutB Out OutP ]
       (fun f => f Dst = a /\ f Old = b_old b /\ f New = b_new b /\ f OutP = b_out b)
       (fun f => ar_ret (f OutB) (f R)) [Old; New; Out; R; OutB; FZ; FC].

(* ---- 64-bit (311-593, not for M-class) ---- *)
(* 317-358 atomic_load; r2/r3 = [Out]/[OutHi] *)
Definition a8l_load64_fn (c : a8_cfg) (b : bufs) (a : Z) (t : bool) : fn Z :=
  mkfn [ a8_ldexd t Out OutHi Src; Clrex; pstp (b_out b) 4 Out OutHi OutP ] (fun f => f Src = a /\ f OutP = b_out b)
       (fun f => Some (arl_out (a8_e c) f)) [Out; OutHi; OutB; OutBHi].
(* 359-402 atomic_store; r2/r3 = [Val]/[ValHi], r4/r5 = [Tmp]/[TmpHi] *)
Definition a8l_store64_fn (c : a8_cfg) (b : bufs) (a v : Z) (t : bool * bool) : fn unit :=
  mkfnl [ arl_pldp (a8_e c) (b_val b) v Val ValHi AR1;
         Lab 2;
           a8_ldexd (fst t) Tmp TmpHi Dst;
           a8_stexd (snd t) R Val ValHi Dst;
           cmp0 R;
           bne_z (B 2) ]
       (fun f => f Dst = a /\ f AR1 = b_val b) (fun f => Some tt) [Dst; Val; ValHi; Tmp; TmpHi; R; FZ; FC] [R].
(* 403-450 atomic_swap; r4/r5 = [Out]/[OutHi] *)
Definition a8l_swap64_fn (c : a8_cfg) (b : bufs) (a v : Z) (t : bool * bool) : fn Z :=
  mkfnl [ arl_pldp (a8_e c) (b_val b) v Val ValHi AR1;
         Lab 2;
           a8_ldexd (fst t) Out OutHi Dst;
           a8_stexd (snd t) R Val ValHi Dst;
           cmp0 R;
           bne_z (B 2);
         pstp (b_out b) 4 Out OutHi OutP ]
       (fun f => f Dst = a /\ f AR1 = b_val b /\ f OutP = b_out b)
       (fun f => Some (arl_out (a8_e c) f)) [Dst; OutP; Val; ValHi; Out; OutHi; R; OutB; OutBHi; FZ; FC] [R].
(* 451-520 atomic_compare_exchange; r2/r3 = [Old]/[OldHi], r8/r9 = [New]/[NewHi] *)
Definition a8l_cas64_fn (c : a8_cfg) (b : bufs) (a old new : Z) (t : bool * bool) : fn (Z * bool) :=
  mkfnl [ arl_pldp (a8_e c) (b_old b) old Old OldHi AR2;
         arl_pldp (a8_e c) (b_new b) new New NewHi AR3;
         Lab 2;
           a8_ldexd (fst t) Out OutHi Dst;
           xor_ Tmp OutHi OldHi;
           xor_ R Out Old;
           orrs R R Tmp;
           bne_z (F 3);
           a8_stexd (snd t) R New NewHi Dst;
           cmp0 R;
           bne_z (B 2);
           Jmp (F 4);
         Lab 3;
           Clrex;
           a8_mov1 (a8_mclass c) R;
         Lab 4;
         pstp (b_out b) 4 Out OutHi OutP ]
       (fun f => f Dst = a /\ f AR2 = b_old b /\ f AR3 = b_new b /\ f OutP = b_out b)
       (fun f => ar_ret (arl_out (a8_e c) f) (f R)) [Dst; OutP; R; Tmp; Old; OldHi; Out; OutHi; New; NewHi; OutB; OutBHi; FZ; FC] [R].
(* 521-588 atomic_compare_exchange_weak *)
Definition a8l_casw64_fn (c : a8_cfg) (b : bufs) (a old new : Z) (t : bool * bool) : fn (Z * bool) :=
  mkfnl [ arl_pldp (a8_e c) (b_old b) old Old OldHi AR2;
         arl_pldp (a8_e c) (b_new b) new New NewHi AR3;
         a8_ldexd (fst t) Out OutHi Dst;
         xor_ Tmp OutHi OldHi;
         xor_ R Out Old;
         orrs R R Tmp;
         bne_z (F 3);
         a8_stexd (snd t) R New NewHi Dst;
         Jmp (F 4);
         Lab 3;
           Clrex;
           a8_mov1 (a8_mclass c) R;
         Lab 4;
         pstp (b_out b) 4 Out OutHi OutP ]
       (fun f => f Dst = a /\ f AR2 = b_old b /\ f AR3 = b_new b /\ f OutP = b_out b)
       (fun f => ar_ret (arl_out (a8_e c) f) (f R)) [Dst; OutP; R; Tmp; Old; OldHi; Out; OutHi; New; NewHi; OutB; OutBHi; FZ; FC] [R].

(* ---- which implementation a type gets: 301-308, 592-593 ---- *)
Definition a8l_load (c : a8_cfg) (b : bufs) (n : Z) (o : ordering) (a : Z) : impl (fn Z) :=
  if ar_word n then with_table (a8_load_tbl o) (a8l_load_fn b n a)
  else if a8_dw c n then with_table (a8_load_tbl o) (a8l_load64_fn c b a) else NoImpl.
Definition a8l_store (c : a8_cfg) (b : bufs) (n : Z) (o : ordering) (a v : Z) : impl (fn unit) :=
  if ar_word n then with_table (a8_store_tbl o) (a8l_store_fn b n a v)
  else if a8_dw c n then with_table (a8_rmw_tbl o) (a8l_store64_fn c b a v) else NoImpl.
Definition a8l_swap (c : a8_cfg) (b : bufs) (n : Z) (o : ordering) (a v : Z) : impl (fn Z) :=
  if ar_word n then with_table (a8_rmw_tbl o) (a8l_swap_fn b n a v)
  else if a8_dw c n then with_table (a8_rmw_tbl o) (a8l_swap64_fn c b a v) else NoImpl.
Definition a8l_cas (c : a8_cfg) (b : bufs) (n : Z) (success failure : ordering) (a old new : Z) : impl (fn (Z * bool)) :=
  let order := upgrade_success_ordering success failure in
  if ar_word n then with_table (a8_rmw_tbl order) (a8l_cas_fn (a8_mclass c) b n a old new)
  else if a8_dw c n then with_table (a8_rmw_tbl order) (a8l_cas64_fn c b a old new) else NoImpl.
Definition a8l_casw (c : a8_cfg) (b : bufs) (n : Z) (success failure : ordering) (a old new : Z) : impl (fn (Z * bool)) :=
  let order := upgrade_success_ordering success failure in
  if ar_word n then with_table (a8_rmw_tbl order) (a8l_casw_fn (a8_mclass c) b n a old new)
  else if a8_dw c n then with_table (a8_rmw_tbl order) (a8l_casw64_fn c b a old new) else NoImpl.
