(* src/arch/s390x.rs (big-endian, 64-bit) *)
From Verif Require Export ArchCommon.

(* [sz_fast] = fast-serialization facility: "bcr 14,0" instead of "bcr 15,0" (s390x.rs:34-52); both serialize *)
Record sz_cfg := { sz_fast : bool }.

(* s390x.rs:55-58 extract_cc: r.wrapping_add(-268435456) & (1 << 31) != 0, [r] : i64 *)
Definition extract_cc (r : Z) : bool := negb (Z.land (low 64 (r - 268435456)) (2 ^ 31) =? 0).

(* ISA: IPM R: bits 32-33 := 0, 34-35 := cc, 36-39 := program mask; the other bits of R are unchanged
   (numbering from the most significant bit).  Program mask and old contents come from the junk. *)
Definition ipm_val (j cc : Z) : Z := low 28 j + (cc + 16 * low 32 (Z.shiftr j 28)) * 2 ^ 28.
Definition ipm (r : reg) := Op r (fun j l => match l with [cc] => ipm_val j cc | _ => 0 end) [CCR].

(* ISA: L/LB/LH/LG: 32-bit forms leave bits 0-31 of the register unchanged *)
Definition sz_l (sz : Z) (r a : reg) (off : Z) := Ld sz (XJ 64) acqrel r a off.
Definition sz_st (sz : Z) (r a : reg) := St sz plain r a 0.
(* ISA: CS/CSG R1,R3,D2(B2): compare the low sz bytes of R1 with memory; equal: store R3, cc 0;
   else R1 := memory, cc 1 *)
Definition sz_cs (sz : Z) (r1 r3 a : reg) :=
  Rmw sz acqrel a
    (fun _ v f => if low (8 * sz) (f r1) =? v then Some (f r3) else None)
    (fun _ j v f => if low (8 * sz) (f r1) =? v then [(CCR, 0)] else [(CCR, 1); (r1, junk_hi 64 (8 * sz) v j)]).
(* ISA: branch relative on condition *)
Definition jl (l : lbl) := Br (br1 (fun cc => cc =? 1)) [CCR] l.
Definition jlh (l : lbl) := Br (br1 (fun cc => negb (cc =? 0))) [CCR] l.  (* cc 1 or 2; cr never sets 3 *)
(* ISA: RLL R1,R3,D2(B2): rotate the low 32 bits of R3 left by (D2 + B2) mod 64; bits 0-31 of R1 unchanged *)
Definition rotl32 (x k : Z) : Z := Z.lor (low 32 (Z.shiftl x (k mod 32))) (Z.shiftr x (32 - k mod 32)).
Definition rll (r1 r3 : reg) (d : Z) (b : reg) :=
  Op r1 (fun j l => match l with [x; y] => junk_hi 64 32 (rotl32 (low 32 x) (d + y)) j | _ => 0 end) [r3; b].
(* ISA: RISBG R1,R2,I3,I4,I5: rotate R2 left by I5, insert bits I3..I4 (numbered from the left) into R1;
   also sets the condition code *)
Definition rotl64 (x k : Z) : Z := Z.lor (low 64 (Z.shiftl x k)) (Z.shiftr x (64 - k)).
Definition risbg_val (r1 r2 i3 i4 i5 : Z) : Z :=
  let m := Z.shiftl (2 ^ (i4 - i3 + 1) - 1) (63 - i4) in
  Z.lor (Z.ldiff r1 m) (Z.land (rotl64 r2 i5) m).
Definition risbg (r1 r2 : reg) (i3 i4 i5 : Z) :=
  Op2 r1 CCR (fun j l => match l with [x; y] => (risbg_val x y i3 i4 i5, low 2 j) | _ => (0, 0) end) [r1; r2].
(* ISA: LLCR/LLHR R,R: zero-extend the low byte/halfword to 32 bits; bits 0-31 unchanged *)
Definition llr (sz : Z) (r1 r2 : reg) :=
  Op r1 (fun j l => match l with [x] => junk_hi 64 32 (low (8 * sz) x) j | _ => 0 end) [r2].
(* ISA: CR: signed 32-bit compare *)
Definition s32 (x : Z) : Z := if low 32 x <? 2 ^ 31 then low 32 x else low 32 x - 2 ^ 32.
Definition cr (a b : reg) :=
  Op CCR (op2 (fun x y => if s32 x =? s32 y then 0 else if s32 x <? s32 y then 1 else 2)) [a; b].
(* ISA: LPQ/STPQ/CDSG work on the even/odd pair: even register = high doubleword *)
Definition lpq (rh rl a : reg) :=
  Rmw 16 plain a (fun _ _ _ => None) (fun _ _ v _ => [(rh, Z.shiftr v 64); (rl, low 64 v)]).
Definition stpq (rh rl a : reg) :=
  Rmw 16 plain a (fun _ _ f => Some (low 64 (f rl) + f rh * 2 ^ 64)) (fun _ _ _ _ => []).
Definition cdsg (rh rl nh nl a : reg) :=
  Rmw 16 acqrel a
    (fun _ v f => if low 64 (f rl) + f rh * 2 ^ 64 =? v then Some (low 64 (f nl) + f nh * 2 ^ 64) else None)
    (fun _ _ v f => if low 64 (f rl) + f rh * 2 ^ 64 =? v then [(CCR, 0)]
                    else [(CCR, 1); (rh, Z.shiftr v 64); (rl, low 64 v)]).

(* s390x.rs:103-108, 309-314 fence after a store; serialization!() *)
Definition sz_store_tbl (o : ordering) : option fence :=
  match o with Relaxed | Release => Some FNone | SeqCst => Some FBcr | _ => None end.

(* s390x.rs:63-81 atomic_load *)
Definition sz_load_fn (n a : Z) : fn Z :=
  mkfnl [ sz_l n Out Src 0 ] (fun f => f Src = a) (fun f => Some (low (8 * n) (f Out))) [Out] [Out].
(* s390x.rs:82-112 atomic_store *)
Definition sz_store_fn (n a v : Z) (t : fence) : fn unit :=
  mkfn [ sz_st n Val Dst; Fence t ]
       (fun f => f Dst = a /\ opnd 64 (8 * n) v (f Val)) (fun f => Some tt) [].
(* s390x.rs:118-146 atomic_swap *)
Definition sz_swap_fn (n a v : Z) : fn Z :=
  mkfn [ sz_l n Out Dst 0;
         Lab 2;
           sz_cs n Out Val Dst;
           jl (B 2) ]
       (fun f => f Dst = a /\ opnd 64 (8 * n) v (f Val))
       (fun f => Some (low (8 * n) (f Out))) [Out; CCR].
(* s390x.rs:147-176 atomic_compare_exchange *)
Definition sz_cas_fn (n a old new : Z) : fn (Z * bool) :=
  mkfnl [ sz_cs n Old New Dst; ipm R ]
       (fun f => f Dst = a /\ opnd 64 (8 * n) old (f Old) /\ opnd 64 (8 * n) new (f New))
       (fun f => Some (low (8 * n) (f Old), extract_cc (f R)))
       [Old; R; CCR] [R].
(* $bits / $risbg_swap / $risbg_cas arguments: s390x.rs:263-266 *)
Definition sz_bits (n : Z) : Z := if n =? 1 then 8 else 16.
Definition sz_risbg_swap (n : Z) : Z * Z := if n =? 1 then (39, 24) else (47, 16).
Definition sz_risbg_cas (n : Z) : Z := if n =? 1 then 55 else 47.
(* s390x.rs:183-220 atomic_swap (sub-word); `prev` is Tmp2 *)
Definition sz_swap_sub_fn (n a v : Z) : fn Z :=
  let '(dst, shift, _) := create_sub_word_mask_values A_s390x BE 64 32 n a in
  mkfn [ sz_l 4 Tmp2 Dst 0;
         Lab 2;
           rll Out Tmp2 0 Shift;
           risbg Out Val 32 (fst (sz_risbg_swap n)) (snd (sz_risbg_swap n));
           rll Out Out 0 ShiftC;
           sz_cs 4 Tmp2 Out Dst;
           jl (B 2);
         rll Out Tmp2 (sz_bits n) Shift ]
       (fun f => f Dst = dst /\ opnd 64 (8 * n) v (f Val) /\ opnd 64 32 shift (f Shift) /\
                 opnd 64 32 (low 32 (- shift)) (f ShiftC))
       (fun f => Some (low (8 * n) (f Out)))
       [Out; Tmp2; CCR].
(* s390x.rs:221-259 atomic_compare_exchange (sub-word); `prev` is Tmp2 *)
Definition sz_cas_sub_fn (n a old new : Z) : fn (Z * bool) :=
  let '(dst, shift, _) := create_sub_word_mask_values A_s390x BE 64 32 n a in
  mkfnl [ sz_l 4 Tmp2 Dst 0;
         Lab 2;
           rll Out Tmp2 (sz_bits n) Shift;
           risbg New Out 32 (sz_risbg_cas n) 0;
           llr n Out Out;
           cr Out Old;
           jlh (F 3);
           rll Tmp New (- sz_bits n) ShiftC;
           sz_cs 4 Tmp2 Tmp Dst;
           jl (B 2);
         Lab 3;
         ipm R ]
       (fun f => f Dst = dst /\ opnd 64 32 old (f Old) /\ opnd 64 (8 * n) new (f New) /\
                 opnd 64 32 shift (f Shift) /\ opnd 64 32 (low 32 (- shift)) (f ShiftC))
       (fun f => Some (low (8 * n) (f Out), extract_cc (f R)))
       [Tmp2; New; Tmp; R; Out; CCR] [R].

(* 128-bit: AR0:AR1 = %r0:%r1, AR2:AR3 = %r12:%r13 *)
(* s390x.rs:277-297 atomic_load *)
Definition sz_load128_fn (a : Z) : fn Z :=
  mkfn [ lpq AR0 AR1 Src ] (fun f => f Src = a)
       (fun f => Some (pair_join A_s390x BE 64 (f AR1) (f AR0))) [AR0; AR1].
(* s390x.rs:298-330 atomic_store *)
Definition sz_store128_fn (a v : Z) (t : fence) : fn unit :=
  mkfn [ stpq AR0 AR1 Dst; Fence t ]
       (fun f => f Dst = a /\ f AR0 = pair_hi A_s390x BE 64 v /\ f AR1 = pair_lo A_s390x BE 64 v)
       (fun f => Some tt) [].
(* s390x.rs:331-365 atomic_swap *)
Definition sz_swap128_fn (a v : Z) : fn Z :=
  mkfn [ sz_l 8 AR0 Dst 8;
         sz_l 8 AR1 Dst 0;
         Lab 2;
           cdsg AR0 AR1 AR2 AR3 Dst;
           jl (B 2) ]
       (fun f => f Dst = a /\ f AR2 = pair_hi A_s390x BE 64 v /\ f AR3 = pair_lo A_s390x BE 64 v)
       (fun f => Some (pair_join A_s390x BE 64 (f AR1) (f AR0))) [AR0; AR1; CCR].
(* s390x.rs:366-403 atomic_compare_exchange *)
Definition sz_cas128_fn (a old new : Z) : fn (Z * bool) :=
  mkfnl [ cdsg AR0 AR1 AR2 AR3 Dst; ipm R ]
       (fun f => f Dst = a /\ f AR0 = pair_hi A_s390x BE 64 old /\ f AR1 = pair_lo A_s390x BE 64 old /\
                 f AR2 = pair_hi A_s390x BE 64 new /\ f AR3 = pair_lo A_s390x BE 64 new)
       (fun f => Some (pair_join A_s390x BE 64 (f AR1) (f AR0), extract_cc (f R))) [AR0; AR1; R; CCR] [R].

(* ---- which implementation a type gets: s390x.rs:263-272, 408-409 ---- *)
Definition sz_word (n : Z) : bool := (n =? 4) || (n =? 8).
Definition sz_subword (n : Z) : bool := (n =? 1) || (n =? 2).
Definition sz_load (c : sz_cfg) (n : Z) (o : ordering) (a : Z) : impl (fn Z) :=
  if sz_word n || sz_subword n then Impl (sz_load_fn n a)
  else if n =? 16 then Impl (sz_load128_fn a) else NoImpl.
Definition sz_store (c : sz_cfg) (n : Z) (o : ordering) (a v : Z) : impl (fn unit) :=
  if sz_word n || sz_subword n then with_table (sz_store_tbl o) (sz_store_fn n a v)
  else if n =? 16 then with_table (sz_store_tbl o) (sz_store128_fn a v) else NoImpl.
Definition sz_swap (c : sz_cfg) (n : Z) (o : ordering) (a v : Z) : impl (fn Z) :=
  if sz_word n then Impl (sz_swap_fn n a v)
  else if sz_subword n then Impl (sz_swap_sub_fn n a v)
  else if n =? 16 then Impl (sz_swap128_fn a v) else NoImpl.
Definition sz_cas (c : sz_cfg) (n : Z) (success failure : ordering) (a old new : Z) : impl (fn (Z * bool)) :=
  if sz_word n then Impl (sz_cas_fn n a old new)
  else if sz_subword n then Impl (sz_cas_sub_fn n a old new)
  else if n =? 16 then Impl (sz_cas128_fn a old new) else NoImpl.
