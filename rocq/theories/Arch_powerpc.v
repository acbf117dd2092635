(* src/arch/powerpc.rs (powerpc, powerpc64; both endiannesses) *)
From Verif Require Export ArchCommon.

(* [pp_w] = register width = pointer width (32: powerpc, 64: powerpc64); [pp_part] = partword-atomics;
   [pp_quad] = quadword-atomics; [pp_e] = target_endian *)
Record pp_cfg := { pp_w : Z; pp_part : bool; pp_quad : bool; pp_e : endian }.
Definition pp_wf (c : pp_cfg) : Prop := pp_w c = 32 \/ pp_w c = 64.
Definition pp_arch (c : pp_cfg) : tarch := if pp_w c =? 32 then A_powerpc else A_powerpc64.

(* powerpc.rs:82-85 test_cr0_eq: cr & 0x20000000 != 0 *)
Definition test_cr0_eq (cr : Z) : bool := negb (Z.land cr 0x20000000 =? 0).
(* ISA: mfcr: the 32-bit CR; bit 2 from the left (0x20000000) is cr0.EQ, all other bits are arbitrary here *)
Definition mfcr_val (j eq : Z) : Z := low 29 j + (eq + 2 * low 2 (Z.shiftr j 30)) * 2 ^ 29.
Definition mfcr (r : reg) := Op r (fun j l => match l with [eq] => mfcr_val j eq | _ => 0 end) [CCR].

(* ISA: lbz/lhz/lwz/ld zero-extend; so do lbarx/lharx/lwarx/ldarx *)
Definition pp_l (sz : Z) (r a : reg) := Ld sz XZ plain r a 0.
Definition pp_st (sz : Z) (r a : reg) := St sz plain r a 0.
Definition larx (sz : Z) (r a : reg) := LL sz XZ plain r a.
(* ISA: st*cx. sets cr0.EQ to whether the store was performed *)
Definition stcx (sz : Z) (r a : reg) := SC sz plain CCR 1 (fun _ => 0) r a.
(* ISA: cmpw/cmpd compare the low 32 / all 64 bits; only cr0.EQ is modelled *)
Definition cmp_ (k : Z) (a b : reg) := Op CCR (op2 (fun x y => b2z (low k x =? low k y))) [a; b].
Definition bne (l : lbl) := Br (br1 (fun q => q =? 0)) [CCR] l.
(* ISA: slw/srw: shift amount is the low 6 bits, >= 32 gives 0; 32-bit result, upper half zero *)
Definition slw_val (x y : Z) : Z := if low 6 y <? 32 then low 32 (Z.shiftl x (low 6 y)) else 0.
Definition srw_val (x y : Z) : Z := if low 6 y <? 32 then Z.shiftr (low 32 x) (low 6 y) else 0.
Definition slw (r a b : reg) := Op r (op2 slw_val) [a; b].
Definition srw (r a b : reg) := Op r (op2 srw_val) [a; b].
(* ISA: or. ra,rs,rb also sets cr0.EQ = (result == 0) *)
Definition or_dot (r a b : reg) :=
  Op2 r CCR (fun _ l => match l with [x; y] => (Z.lor x y, b2z (Z.lor x y =? 0)) | _ => (0, 0) end) [a; b].
(* ISA: lq/stq/lqarx/stqcx. use an even/odd pair; the even register holds the more significant doubleword in
   both byte orders *)
Definition pp_lq (rh rl a : reg) :=
  Rmw 16 plain a (fun _ _ _ => None) (fun _ _ v _ => [(rh, Z.shiftr v 64); (rl, low 64 v)]).
Definition pp_stq (rh rl a : reg) :=
  Rmw 16 plain a (fun _ _ f => Some (low 64 (f rl) + f rh * 2 ^ 64)) (fun _ _ _ _ => []).
Definition lqarx (e : endian) (rh rl a : reg) :=
  match e with LE => LLp true 8 plain rl rh a | BE => LLp true 8 plain rh rl a end.
Definition stqcx (e : endian) (rh rl a : reg) :=
  match e with LE => SCp 8 plain CCR 1 (fun _ => 0) rl rh a | BE => SCp 8 plain CCR 1 (fun _ => 0) rh rl a end.

(* powerpc.rs:45-56 atomic_rmw! (acquire, release) *)
Definition pp_rmw_tbl (o : ordering) : option (fence * fence) :=
  match o with
  | Relaxed => Some (FNone, FNone)
  | Acquire => Some (FIsync, FNone)
  | Release => Some (FNone, FLwsync)
  | AcqRel => Some (FIsync, FLwsync)
  | SeqCst => Some (FIsync, FSync)
  end.
(* powerpc.rs:57-79 atomic_cas! (acquire_always, acquire_success, release) *)
Definition pp_cas_tbl (success failure : ordering) : option (fence * fence * fence) :=
  match failure with
  | Relaxed =>
    match success with
    | Relaxed => Some (FNone, FNone, FNone)
    | Acquire => Some (FNone, FIsync, FNone)
    | Release => Some (FNone, FNone, FLwsync)
    | AcqRel => Some (FNone, FIsync, FLwsync)
    | SeqCst => Some (FNone, FIsync, FSync)
    end
  | _ =>
    match upgrade_success_ordering success failure with
    | Acquire => Some (FIsync, FNone, FNone)
    | AcqRel => Some (FIsync, FNone, FLwsync)
    | SeqCst => Some (FIsync, FNone, FSync)
    | _ => None
    end
  end.
(* powerpc.rs:117-129, 530-543: inner None = the relaxed block, Some r = atomic_load_acquire!(r) *)
Definition pp_load_tbl (o : ordering) : option (option fence) :=
  match o with Relaxed => Some None | Acquire => Some (Some FNone) | SeqCst => Some (Some FSync) | _ => None end.
(* powerpc.rs:157-162, 576-581 *)
Definition pp_store_tbl (o : ordering) : option fence :=
  match o with Relaxed => Some FNone | Release => Some FLwsync | SeqCst => Some FSync | _ => None end.

(* powerpc.rs:90-133 atomic_load *)
Definition pp_load_fn (n a : Z) (t : option fence) : fn Z :=
  match t with
  | None => mkfnl [ pp_l n Out Src ] (fun f => f Src = a) (fun f => Some (low (8 * n) (f Out))) [Out] [Out]
  | Some release =>
      mkfnl [ Fence release;
             pp_l n Out Src;
             cmp_ 32 Out Out;
             bne (F 2);
             Lab 2;
             Fence FIsync ]
           (fun f => f Src = a) (fun f => Some (low (8 * n) (f Out))) [Out; CCR] [Out]
  end.
(* powerpc.rs:134-163 atomic_store *)
Definition pp_store_fn (c : pp_cfg) (n a v : Z) (t : fence) : fn unit :=
  mkfn [ Fence t; pp_st n Val Dst ]
       (fun f => f Dst = a /\ opnd (pp_w c) (8 * n) v (f Val)) (fun f => Some tt) [].
(* powerpc.rs:172-205 atomic_swap *)
Definition pp_swap_fn (c : pp_cfg) (n a v : Z) (t : fence * fence) : fn Z :=
  let '(acquire, release) := t in
  mkfn [ Fence release;
         Lab 2;
           larx n Out Dst;
           stcx n Val Dst;
           bne (B 2);
         Fence acquire ]
       (fun f => f Dst = a /\ opnd (pp_w c) (8 * n) v (f Val))
       (fun f => Some (low (8 * n) (f Out))) [Out; CCR].
(* operand width of `old` after ZeroExtend::zero_extend, and $cmp_size: powerpc.rs:302, 478-495 *)
Definition pp_k (n : Z) : Z := if n =? 8 then 64 else 32.
(* powerpc.rs:206-249 atomic_compare_exchange *)
Definition pp_cas_fn (c : pp_cfg) (n a old new : Z) (t : fence * fence * fence) : fn (Z * bool) :=
  let '(acquire_always, acquire_success, release) := t in
  mkfnl [ Fence release;
         Lab 2;
           larx n Out Dst;
           cmp_ (pp_k n) Old Out;
           bne (F 3);
           stcx n New Dst;
           bne (B 2);
           Fence acquire_success;
         Lab 3;
         Fence acquire_always;
         mfcr R ]
       (fun f => f Dst = a /\ opnd (pp_w c) (pp_k n) old (f Old) /\ opnd (pp_w c) (8 * n) new (f New))
       (fun f => Some (low (8 * n) (f Out), test_cr0_eq (f R)))
       [Out; R; CCR] [R].
(* powerpc.rs:250-291 atomic_compare_exchange_weak *)
Definition pp_casw_fn (c : pp_cfg) (n a old new : Z) (t : fence * fence * fence) : fn (Z * bool) :=
  let '(acquire_always, acquire_success, release) := t in
  mkfnl [ Fence release;
         larx n Out Dst;
         cmp_ (pp_k n) Old Out;
         bne (F 3);
         stcx n New Dst;
         Fence acquire_success;
         Lab 3;
         Fence acquire_always;
         mfcr R ]
       (fun f => f Dst = a /\ opnd (pp_w c) (pp_k n) old (f Old) /\ opnd (pp_w c) (8 * n) new (f New))
       (fun f => Some (low (8 * n) (f Out), test_cr0_eq (f R)))
       [Out; R; CCR] [R].
(* powerpc.rs:312-356 atomic_swap (sub-word) *)
Definition pp_swap_sub_fn (c : pp_cfg) (n a v : Z) (t : fence * fence) : fn Z :=
  let '(acquire, release) := t in
  let '(dst, shift, mask) := create_sub_word_mask_values (pp_arch c) (pp_e c) (pp_w c) (pp_w c) n a in
  mkfn [ slw Val Val Shift;
         Fence release;
         Lab 2;
           larx 4 Out Dst;
           andn_ Tmp Out Mask;
           or_ Tmp Val Tmp;
           stcx 4 Tmp Dst;
           bne (B 2);
         Fence acquire;
         srw Out Out Shift ]
       (fun f => f Dst = dst /\ f Shift = shift /\ f Mask = mask /\ opnd (pp_w c) 32 v (f Val))
       (fun f => Some (low (8 * n) (f Out))) [Val; Out; Tmp; CCR].
(* powerpc.rs:361-416 atomic_compare_exchange (sub-word) *)
Definition pp_cas_sub_fn (c : pp_cfg) (n a old new : Z) (t : fence * fence * fence) : fn (Z * bool) :=
  let '(acquire_always, acquire_success, release) := t in
  let '(dst, shift, mask) := create_sub_word_mask_values (pp_arch c) (pp_e c) (pp_w c) (pp_w c) n a in
  mkfn [ slw Old Old Shift;
         slw New New Shift;
         Fence release;
         Lab 2;
           larx 4 Out Dst;
           and_ Tmp Out Mask;
           cmp_ 32 Tmp Old;
           bne (F 3);
           andn_ Tmp Out Mask;
           or_ Tmp Tmp New;
           stcx 4 Tmp Dst;
           bne (B 2);
           Fence acquire_success;
         Lab 3;
         Fence acquire_always;
         srw Out Out Shift;
         mfcr Tmp ]
       (fun f => f Dst = dst /\ f Shift = shift /\ f Mask = mask /\
                 opnd (pp_w c) 32 old (f Old) /\ opnd (pp_w c) 32 new (f New))
       (fun f => Some (low (8 * n) (f Out), test_cr0_eq (f Tmp)))
       [Old; New; Out; Tmp; CCR].
(* powerpc.rs:417-471 atomic_compare_exchange_weak (sub-word) *)
Definition pp_casw_sub_fn (c : pp_cfg) (n a old new : Z) (t : fence * fence * fence) : fn (Z * bool) :=
  let '(acquire_always, acquire_success, release) := t in
  let '(dst, shift, mask) := create_sub_word_mask_values (pp_arch c) (pp_e c) (pp_w c) (pp_w c) n a in
  mkfn [ slw Old Old Shift;
         slw New New Shift;
         Fence release;
         larx 4 Out Dst;
         and_ Tmp Out Mask;
         cmp_ 32 Tmp Old;
         bne (F 3);
         andn_ Tmp Out Mask;
         or_ Tmp Tmp New;
         stcx 4 Tmp Dst;
         Fence acquire_success;
         Lab 3;
         Fence acquire_always;
         srw Out Out Shift;
         mfcr Tmp ]
       (fun f => f Dst = dst /\ f Shift = shift /\ f Mask = mask /\
                 opnd (pp_w c) 32 old (f Old) /\ opnd (pp_w c) 32 new (f New))
       (fun f => Some (low (8 * n) (f Out), test_cr0_eq (f Tmp)))
       [Old; New; Out; Tmp; CCR].

(* 128-bit (powerpc64 + quadword-atomics); AR4 .. AR7 stand for the registers r4/r5, r6/r7 (first pair: AR4:AR5)
   and r8/r9 (second pair: AR6:AR7) *)
(* powerpc.rs:500-549 atomic_load: r4:r5 = AR4:AR5 *)
Definition pp_load128_fn (c : pp_cfg) (a : Z) (t : option fence) : fn Z :=
  let out := fun f : regs => Some (pair_join A_powerpc64 (pp_e c) 64 (f AR5) (f AR4)) in
  match t with
  | None => mkfn [ pp_lq AR4 AR5 Src ] (fun f => f Src = a) out [AR4; AR5]
  | Some release =>
      mkfn [ Fence release;
             pp_lq AR4 AR5 Src;
             cmp_ 32 AR4 AR4;
             bne (F 2);
             Lab 2;
             Fence FIsync ]
           (fun f => f Src = a) out [AR4; AR5; CCR]
  end.
(* powerpc.rs:550-584 atomic_store: r4:r5 = AR4:AR5 *)
Definition pp_store128_fn (c : pp_cfg) (a v : Z) (t : fence) : fn unit :=
  mkfn [ Fence t; pp_stq AR4 AR5 Dst ]
       (fun f => f Dst = a /\ f AR4 = pair_hi A_powerpc64 (pp_e c) 64 v /\ f AR5 = pair_lo A_powerpc64 (pp_e c) 64 v)
       (fun f => Some tt) [].
(* powerpc.rs:585-623 atomic_swap: r6:r7 = AR4:AR5 (previous), r8:r9 = AR6:AR7 (new) *)
Definition pp_swap128_fn (c : pp_cfg) (a v : Z) (t : fence * fence) : fn Z :=
  let '(acquire, release) := t in
  mkfn [ Fence release;
         Lab 2;
           lqarx (pp_e c) AR4 AR5 Dst;
           stqcx (pp_e c) AR6 AR7 Dst;
           bne (B 2);
         Fence acquire ]
       (fun f => f Dst = a /\ f AR6 = pair_hi A_powerpc64 (pp_e c) 64 v /\ f AR7 = pair_lo A_powerpc64 (pp_e c) 64 v)
       (fun f => Some (pair_join A_powerpc64 (pp_e c) 64 (f AR5) (f AR4))) [AR4; AR5; CCR].
(* powerpc.rs:624-680 atomic_compare_exchange: r6:r7 = AR4:AR5 (new), r8:r9 = AR6:AR7 (previous) *)
Definition pp_cas128_fn (c : pp_cfg) (a old new : Z) (t : fence * fence * fence) : fn (Z * bool) :=
  let '(acquire_always, acquire_success, release) := t in
  mkfn [ Fence release;
         Lab 2;
           lqarx (pp_e c) AR6 AR7 Dst;
           xor_ Tmp AR7 Old;
           xor_ TmpHi AR6 OldHi;
           or_dot Tmp Tmp TmpHi;
           bne (F 3);
           stqcx (pp_e c) AR4 AR5 Dst;
           bne (B 2);
           Fence acquire_success;
         Lab 3;
         Fence acquire_always;
         mfcr Tmp ]
       (fun f => f Dst = a /\ f OldHi = pair_hi A_powerpc64 (pp_e c) 64 old /\ f Old = pair_lo A_powerpc64 (pp_e c) 64 old /\
                 f AR4 = pair_hi A_powerpc64 (pp_e c) 64 new /\ f AR5 = pair_lo A_powerpc64 (pp_e c) 64 new)
       (fun f => Some (pair_join A_powerpc64 (pp_e c) 64 (f AR7) (f AR6), test_cr0_eq (f Tmp)))
       [TmpHi; Tmp; AR6; AR7; CCR].
(* powerpc.rs:681-735 atomic_compare_exchange_weak *)
Definition pp_casw128_fn (c : pp_cfg) (a old new : Z) (t : fence * fence * fence) : fn (Z * bool) :=
  let '(acquire_always, acquire_success, release) := t in
  mkfn [ Fence release;
         lqarx (pp_e c) AR6 AR7 Dst;
         xor_ Tmp AR7 Old;
         xor_ TmpHi AR6 OldHi;
         or_dot Tmp Tmp TmpHi;
         bne (F 3);
         stqcx (pp_e c) AR4 AR5 Dst;
         Fence acquire_success;
         Lab 3;
         Fence acquire_always;
         mfcr Tmp ]
       (fun f => f Dst = a /\ f OldHi = pair_hi A_powerpc64 (pp_e c) 64 old /\ f Old = pair_lo A_powerpc64 (pp_e c) 64 old /\
                 f AR4 = pair_hi A_powerpc64 (pp_e c) 64 new /\ f AR5 = pair_lo A_powerpc64 (pp_e c) 64 new)
       (fun f => Some (pair_join A_powerpc64 (pp_e c) 64 (f AR7) (f AR6), test_cr0_eq (f Tmp)))
       [TmpHi; Tmp; AR6; AR7; CCR].

(* ---- which implementation a type gets: powerpc.rs:296-311, 474-495, 738-750 ---- *)
Definition pp_subword (n : Z) : bool := (n =? 1) || (n =? 2).
Definition pp_word (c : pp_cfg) (n : Z) : bool := (n =? 4) || ((n =? 8) && (pp_w c =? 64)).
Definition pp_full (c : pp_cfg) (n : Z) : bool := pp_word c n || (pp_subword n && pp_part c).
Definition pp_wide (c : pp_cfg) (n : Z) : bool := (n =? 16) && (pp_w c =? 64) && pp_quad c.
Definition pp_load (c : pp_cfg) (n : Z) (o : ordering) (a : Z) : impl (fn Z) :=
  if pp_word c n || pp_subword n then with_table (pp_load_tbl o) (pp_load_fn n a)
  else if pp_wide c n then with_table (pp_load_tbl o) (pp_load128_fn c a) else NoImpl.
Definition pp_store (c : pp_cfg) (n : Z) (o : ordering) (a v : Z) : impl (fn unit) :=
  if pp_word c n || pp_subword n then with_table (pp_store_tbl o) (pp_store_fn c n a v)
  else if pp_wide c n then with_table (pp_store_tbl o) (pp_store128_fn c a v) else NoImpl.
Definition pp_swap (c : pp_cfg) (n : Z) (o : ordering) (a v : Z) : impl (fn Z) :=
  if pp_full c n then with_table (pp_rmw_tbl o) (pp_swap_fn c n a v)
  else if pp_subword n then with_table (pp_rmw_tbl o) (pp_swap_sub_fn c n a v)
  else if pp_wide c n then with_table (pp_rmw_tbl o) (pp_swap128_fn c a v) else NoImpl.
Definition pp_cas (c : pp_cfg) (n : Z) (success failure : ordering) (a old new : Z) : impl (fn (Z * bool)) :=
  if pp_full c n then with_table (pp_cas_tbl success failure) (pp_cas_fn c n a old new)
  else if pp_subword n then with_table (pp_cas_tbl success failure) (pp_cas_sub_fn c n a old new)
  else if pp_wide c n then with_table (pp_cas_tbl success failure) (pp_cas128_fn c a old new) else NoImpl.
Definition pp_casw (c : pp_cfg) (n : Z) (success failure : ordering) (a old new : Z) : impl (fn (Z * bool)) :=
  if pp_full c n then with_table (pp_cas_tbl success failure) (pp_casw_fn c n a old new)
  else if pp_subword n then with_table (pp_cas_tbl success failure) (pp_casw_sub_fn c n a old new)
  else if pp_wide c n then with_table (pp_cas_tbl success failure) (pp_casw128_fn c a old new) else NoImpl.
