(* src/arch/x86.rs (x86 and x86_64, little-endian) *)
From Verif Require Export ArchCommon.

(* compile-time configuration: x_w = register width (target_arch = "x86" -> 32, "x86_64" -> 64),
   x_pw = target_pointer_width (32 on x86_64 is the x32 ABI), instruction-set features *)
Record x_cfg := { x_w : Z; x_pw : Z; x_cmpxchg : bool; x_c8b : bool; x_c16b : bool;
                  x_sse : bool; x_sse2 : bool; x_x87 : bool }.
(* combinations that exist: cmpxchg and cmpxchg8b are always available on x86_64, sse2 implies sse *)
Definition x_wf (c : x_cfg) : Prop :=
  ((x_w c = 32 /\ x_pw c = 32) \/ (x_w c = 64 /\ (x_pw c = 32 \/ x_pw c = 64) /\ x_cmpxchg c = true)) /\
  (x_sse2 c = true -> x_sse c = true) /\ (x_c8b c = true -> x_cmpxchg c = true).
Definition x_arch (c : x_cfg) : tarch := if x_w c =? 32 then A_x86 else A_x86_64.

(* ptr_modifier!() x86.rs:37-48, $rdi 487-492: "[{src:e}]" uses the low 32 bits of the register as the address,
   "[{src}]" all of it.  Modelled as a pseudo instruction computing the effective address into AR7. *)
Definition ea (c : x_cfg) (r : reg) := Op AR7 (op1 (low (x_pw c))) [r].

(* ISA: mov r, [m]: 8/16-bit forms keep the upper bits of the register, the 32-bit form zeroes them: unspecified here *)
Definition x_ld (c : x_cfg) (sz : Z) (r : reg) (off : Z) := Ld sz (XJ (x_w c)) plain r AR7 off.
Definition x_st (sz : Z) (r : reg) := St sz plain r AR7 0.
(* ISA: xchg [m], r (implicitly locked) *)
Definition x_xchg (c : x_cfg) (sz : Z) (r : reg) :=
  Rmw sz acqrel AR7 (fun _ _ f => Some (f r)) (fun _ j v _ => [(r, junk_hi (x_w c) (8 * sz) v j)]).
(* ISA: lock cmpxchg [m], cx (accumulator al/ax/eax/rax) *)
Definition x_cmpxchg_i (c : x_cfg) (sz : Z) :=
  Rmw sz acqrel AR7
    (fun _ v f => if low (8 * sz) (f XA) =? v then Some (f XC) else None)
    (fun _ j v f => [(FZ, b2z (low (8 * sz) (f XA) =? v)); (XA, junk_hi (x_w c) (8 * sz) v j)]).
(* ISA: sete cl: low byte := ZF, other bits unchanged *)
Definition sete_cl := Op XC (op2 (fun cx z => z + Z.shiftl (Z.shiftr cx 8) 8)) [XC; FZ].
(* ISA: lock cmpxchg8b/cmpxchg16b [m]; [sz] = bytes, [k] = bits of each half *)
Definition x_cmpxchg2 (sz k : Z) :=
  Rmw sz acqrel AR7
    (fun _ v f => if low k (f XA) + f XD * 2 ^ k =? v then Some (low k (f XB) + f XC * 2 ^ k) else None)
    (fun _ _ v f => if low k (f XA) + f XD * 2 ^ k =? v then [(FZ, 1)]
                    else [(FZ, 0); (XD, Z.shiftr v k); (XA, low k v)]).
(* ISA: jne *)
Definition jne (l : lbl) := Br (br1 (fun z => z =? 0)) [FZ] l.
Definition xchg_rr (r1 r2 : reg) := Op2 r1 r2 (fun _ l => match l with [x; y] => (y, x) | _ => (0, 0) end) [r1; r2].
(* ISA: movq xmm, [m] zeroes bits 64..127; movlps xmm, [m] keeps them *)
Definition x_movq_ld := Ld 8 XZ plain XI AR7 0.
Definition x_movlps_ld := Ld 8 (XJ 128) plain XI AR7 0.
(* ISA: x87 extended format as an 80-bit pattern: sign, 15-bit exponent (bias 16383), 64-bit significand.
   FILD converts a signed 64-bit integer exactly (the significand has 64 bits); FISTP converts back. *)
Definition s64 (v : Z) : Z := if v <? 2 ^ 63 then v else v - 2 ^ 64.
Definition fild_val (v : Z) : Z :=
  let x := s64 v in
  if x =? 0 then 0
  else let sign := if x <? 0 then 1 else 0 in
       let lg := Z.log2 (Z.abs x) in
       sign * 2 ^ 79 + (lg + 16383) * 2 ^ 64 + Z.shiftl (Z.abs x) (63 - lg).
Definition fist_val (st : Z) : Z :=
  let sign := Z.shiftr st 79 in
  let ex := Z.shiftr (low 79 st) 64 in
  let mant := low 64 st in
  let mag := if ex =? 0 then 0 else Z.shiftr mant (63 - (ex - 16383)) in
  low 64 (if sign =? 1 then - mag else mag).

(* x86.rs:88, 98, 109: order dispatch of atomic_store *)
Inductive x_store_shape := XMov | XXchg.
Definition x_store_tbl (o : ordering) : option x_store_shape :=
  match o with Relaxed | Release => Some XMov | SeqCst => Some XXchg | _ => None end.
(* x86.rs:315-335, 346-386: fence after a 64-bit movlps/fistp store *)
Definition x_store64_tbl (o : ordering) : option fence :=
  match o with Relaxed | Release => Some FNone | SeqCst => Some FLockOr | _ => None end.

(* x86.rs:54-75 atomic_load *)
Definition x_load_fn (c : x_cfg) (n a : Z) : fn Z :=
  mkfnl [ ea c Src; x_ld c n Out 0 ] (fun f => opnd (x_w c) (x_pw c) a (f Src))
       (fun f => Some (low (8 * n) (f Out))) [Out; AR7] [Out].
(* x86.rs:76-110 atomic_store *)
Definition x_store_fn (c : x_cfg) (n a v : Z) (t : x_store_shape) : fn unit :=
  let pre f := opnd (x_w c) (x_pw c) a (f Dst) /\ opnd (x_w c) (8 * n) v (f Val) in
  match t with
  | XMov => mkfn [ ea c Dst; x_st n Val ] pre (fun f => Some tt) [AR7]
  | XXchg => mkfn [ ea c Dst; x_xchg c n Val ] pre (fun f => Some tt) [Val; AR7]
  end.
(* x86.rs:111-133 atomic_swap *)
Definition x_swap_fn (c : x_cfg) (n a v : Z) : fn Z :=
  mkfn [ ea c Dst; x_xchg c n Val ]
       (fun f => opnd (x_w c) (x_pw c) a (f Dst) /\ opnd (x_w c) (8 * n) v (f Val))
       (fun f => Some (low (8 * n) (f Val))) [Val; AR7].
(* x86.rs:134-172 atomic_compare_exchange; r: u8 = cl *)
Definition x_cas_fn (c : x_cfg) (n a old new : Z) : fn (Z * bool) :=
  mkfnl [ ea c Dst; x_cmpxchg_i c n; sete_cl ]
       (fun f => opnd (x_w c) (x_pw c) a (f Dst) /\ opnd (x_w c) (8 * n) old (f XA) /\ opnd (x_w c) (8 * n) new (f XC))
       (fun f => ret_cas n (f XA) (low 8 (f XC))) [XC; XA; FZ; FC; AR7] [XC].

(* ---- 64-bit on 32-bit x86 ---- *)
Inductive x_wide := WSse2 | WSse | WX87 | WCas.   (* x86.rs:209-288, 299-418 cfg chains *)
Definition x_load_wide (c : x_cfg) : x_wide :=
  if x_sse2 c then WSse2 else if x_sse c then WSse else if x_x87 c then WX87 else WCas.
Definition x_store_wide (c : x_cfg) : x_wide :=
  if x_sse c then WSse else if x_x87 c then WX87 else WCas.
(* x86.rs:196-292 atomic_load; XI = xmm/st(0); the private buffer `out` written by fistp is the pseudo register Out;
   transmute::<_, [u64; 2]>(xmm)[0] = low 64 bits *)
Definition x_load64_fn (c : x_cfg) (a : Z) : fn Z :=
  match x_load_wide c with
  | WSse2 => mkfn [ ea c Src; x_movq_ld ] (fun f => f Src = a) (fun f => Some (low 64 (f XI))) [XI; AR7]
  | WSse => mkfn [ ea c Src; x_movlps_ld ] (fun f => f Src = a) (fun f => Some (low 64 (f XI))) [XI; AR7]
  | WX87 => mkfn [ ea c Src; Ld 8 XZ plain Tmp AR7 0; Op XI (op1 fild_val) [Tmp]; Op Out (op1 fist_val) [XI] ]
                 (fun f => f Src = a) (fun f => Some (f Out)) [Tmp; XI; Out; FC; AR7]
  | WCas => mkfn [ ea c XS; x_cmpxchg2 8 32 ]
                 (fun f => f XS = a /\ f XB = 0 /\ f XC = 0 /\ f XA = 0 /\ f XD = 0)
                 (fun f => Some (pair_join A_x86 LE 32 (f XA) (f XD))) [XA; XD; FZ; FC; AR7]
  end.
(* x86.rs:293-418 atomic_store.  The private buffer `val` read by fild is the pseudo register Val. *)
Definition x_store64_fn (c : x_cfg) (a v : Z) (t : fence) : fn unit :=
  match x_store_wide c with
  | WSse2 | WSse =>
      mkfn [ ea c Dst; St 8 plain XI AR7 0; Fence t ]
           (fun f => f Dst = a /\ opnd 128 64 v (f XI)) (fun f => Some tt)
           (AR7 :: match t with FNone => [] | _ => [FZ; FC] end)
  | WX87 =>
      mkfn [ ea c Dst; Op XI (op1 fild_val) [Val]; Op Tmp (op1 fist_val) [XI]; St 8 plain Tmp AR7 0; Fence t ]
           (fun f => f Dst = a /\ f Val = v) (fun f => Some tt) [XI; Tmp; FZ; FC; AR7]
  | WCas =>
      mkfn [ ea c XS;
             x_ld c 4 XA 0;
             x_ld c 4 XD 4;
             Lab 2;
               x_cmpxchg2 8 32;
               jne (B 2) ]
           (fun f => f XS = a /\ f XB = pair_lo A_x86 LE 32 v /\ f XC = pair_hi A_x86 LE 32 v)
           (fun f => Some tt) [XA; XD; FZ; FC; AR7]
  end.
(* x86.rs:419-457 atomic_swap *)
Definition x_swap64_fn (c : x_cfg) (a v : Z) : fn Z :=
  mkfn [ ea c XS;
         x_ld c 4 XA 0;
         x_ld c 4 XD 4;
         Lab 2;
           x_cmpxchg2 8 32;
           jne (B 2) ]
       (fun f => f XS = a /\ f XB = pair_lo A_x86 LE 32 v /\ f XC = pair_hi A_x86 LE 32 v)
       (fun f => Some (pair_join A_x86 LE 32 (f XA) (f XD))) [XA; XD; FZ; FC; AR7].
(* x86.rs:458-500 atomic_compare_exchange *)
Definition ret_cas2 (t : tarch) (k lo hi r : Z) : option (Z * bool) :=
  if (r =? 0) || (r =? 1) then Some (pair_join t LE k lo hi, negb (r =? 0)) else None.
Definition x_cas64_fn (c : x_cfg) (a old new : Z) : fn (Z * bool) :=
  mkfnl [ ea c XS; x_cmpxchg2 8 32; sete_cl ]
       (fun f => f XS = a /\ f XB = pair_lo A_x86 LE 32 new /\ f XC = pair_hi A_x86 LE 32 new /\
                 f XA = pair_lo A_x86 LE 32 old /\ f XD = pair_hi A_x86 LE 32 old)
       (fun f => ret_cas2 A_x86 32 (f XA) (f XD) (low 8 (f XC))) [XA; XD; XC; FZ; FC; AR7] [XC].

(* ---- 128-bit on x86_64 with cmpxchg16b; Tmp = rbx_tmp, XB = rbx (not an operand: must be preserved) ---- *)
(* x86.rs:518-551 atomic_load *)
Definition x_load128_fn (c : x_cfg) (a : Z) : fn Z :=
  mkfn [ mov Tmp XB;
         xor_ XB XB XB;
         ea c XS; x_cmpxchg2 16 64;
         mov XB Tmp ]
       (fun f => opnd 64 (x_pw c) a (f XS) /\ f XC = 0 /\ f XA = 0 /\ f XD = 0)
       (fun f => Some (pair_join A_x86_64 LE 64 (f XA) (f XD))) [Tmp; XA; XD; FZ; FC; AR7].
(* x86.rs:552-592 atomic_store *)
Definition x_wide128 (c : x_cfg) : list instr :=
  [ xchg_rr Tmp XB;
    ea c XS;
    x_ld c 8 XA 0;
    x_ld c 8 XD 8;
    Lab 2;
      x_cmpxchg2 16 64;
      jne (B 2);
    mov XB Tmp ].
Definition x_store128_fn (c : x_cfg) (a v : Z) : fn unit :=
  mkfn (x_wide128 c)
       (fun f => opnd 64 (x_pw c) a (f XS) /\ f Tmp = pair_lo A_x86_64 LE 64 v /\ f XC = pair_hi A_x86_64 LE 64 v)
       (fun f => Some tt) [Tmp; XA; XD; FZ; FC; AR7].
(* x86.rs:593-635 atomic_swap (the same block, with outputs) *)
Definition x_swap128_fn (c : x_cfg) (a v : Z) : fn Z :=
  mkfn (x_wide128 c)
       (fun f => opnd 64 (x_pw c) a (f XS) /\ f Tmp = pair_lo A_x86_64 LE 64 v /\ f XC = pair_hi A_x86_64 LE 64 v)
       (fun f => Some (pair_join A_x86_64 LE 64 (f XA) (f XD))) [Tmp; XA; XD; FZ; FC; AR7].
(* x86.rs:636-680 atomic_compare_exchange *)
Definition x_cas128_fn (c : x_cfg) (a old new : Z) : fn (Z * bool) :=
  mkfnl [ xchg_rr Tmp XB;
         ea c XS; x_cmpxchg2 16 64;
         sete_cl;
         mov XB Tmp ]
       (fun f => opnd 64 (x_pw c) a (f XS) /\ f Tmp = pair_lo A_x86_64 LE 64 new /\ f XC = pair_hi A_x86_64 LE 64 new /\
                 f XA = pair_lo A_x86_64 LE 64 old /\ f XD = pair_hi A_x86_64 LE 64 old)
       (fun f => ret_cas2 A_x86_64 64 (f XA) (f XD) (low 8 (f XC))) [Tmp; XA; XD; XC; FZ; FC; AR7] [XC].

(* ---- which implementation a type gets: x86.rs:176-191, 505-510, 683-688 ---- *)
Definition x_word (c : x_cfg) (n : Z) : bool := (n =? 1) || (n =? 2) || (n =? 4) || ((n =? 8) && (x_w c =? 64)).
Definition x_dw (c : x_cfg) (n : Z) : bool := (n =? 8) && (x_w c =? 32) && x_c8b c.
Definition x_qw (c : x_cfg) (n : Z) : bool := (n =? 16) && (x_w c =? 64) && x_c16b c.
Definition x_load (c : x_cfg) (n : Z) (o : ordering) (a : Z) : impl (fn Z) :=
  if x_word c n then Impl (x_load_fn c n a)
  else if x_dw c n then Impl (x_load64_fn c a)
  else if x_qw c n then Impl (x_load128_fn c a) else NoImpl.
Definition x_store (c : x_cfg) (n : Z) (o : ordering) (a v : Z) : impl (fn unit) :=
  if x_word c n then with_table (x_store_tbl o) (x_store_fn c n a v)
  else if x_dw c n then
    match x_store_wide c with
    | WCas => Impl (x_store64_fn c a v FNone)
    | _ => with_table (x_store64_tbl o) (x_store64_fn c a v)
    end
  else if x_qw c n then Impl (x_store128_fn c a v) else NoImpl.
Definition x_swap (c : x_cfg) (n : Z) (o : ordering) (a v : Z) : impl (fn Z) :=
  if x_word c n then Impl (x_swap_fn c n a v)
  else if x_dw c n then Impl (x_swap64_fn c a v)
  else if x_qw c n then Impl (x_swap128_fn c a v) else NoImpl.
Definition x_cas (c : x_cfg) (n : Z) (success failure : ordering) (a old new : Z) : impl (fn (Z * bool)) :=
  if x_word c n then if x_cmpxchg c then Impl (x_cas_fn c n a old new) else NoImpl
  else if x_dw c n then Impl (x_cas64_fn c a old new)
  else if x_qw c n then Impl (x_cas128_fn c a old new) else NoImpl.
