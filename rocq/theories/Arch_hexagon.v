(* src/arch/hexagon.rs (little-endian, 32-bit) *)
From Verif Require Export ArchCommon.
From Verif Require Import Sub32.

(* ISA: memub/memuh/memw zero-extend; memw_locked(dst,p0) = val sets p0 to whether the store was performed (true is any
   nonzero predicate: 1 here) *)
Definition hx_sc (rv ra : reg) := SC 4 plain P0 1 (fun _ => 0) rv ra.
Definition hx_scd (r1 r2 ra : reg) := SCp 4 plain P0 1 (fun _ => 0) r1 r2 ra.
(* ISA: rH:L = memd(src), memd(dst) = rH:L: one 64-bit access; the low register is the less significant word *)
Definition hx_memd (rl rh ra : reg) :=
  Rmw 8 plain ra (fun _ _ _ => None) (fun _ _ v _ => [(rl, low 32 v); (rh, Z.shiftr v 32)]).
Definition hx_std (rl rh ra : reg) :=
  Rmw 8 plain ra (fun _ _ f => Some (low 32 (f rl) + f rh * 2 ^ 32)) (fun _ _ _ _ => []).
(* ISA: { p0 = cmp.eq(a,b); if (!p0.new) jump:nt l } is modelled as the compare followed by the jump on the new predicate *)
Definition hx_cmpeq (a b : reg) := Op P0 (op2 (fun x y => b2z (x =? y))) [a; b].
Definition jump_if_not (l : lbl) := Br (br1 (fun p => p =? 0)) [P0] l.
(* ISA: asl/asr(Rs,Rt): the amount is the signed low 7 bits of Rt; a negative amount shifts the other way *)
Definition hx_amt (y : Z) : Z := if low 7 y <? 64 then low 7 y else low 7 y - 128.
Definition s32 (x : Z) : Z := if x <? 2 ^ 31 then x else x - 2 ^ 32.
Definition asl_val (x y : Z) : Z := if 0 <=? hx_amt y then low 32 (Z.shiftl x (hx_amt y)) else low 32 (Z.shiftr (s32 x) (- hx_amt y)).
Definition asr_val (x y : Z) : Z := if 0 <=? hx_amt y then low 32 (Z.shiftr (s32 x) (hx_amt y)) else low 32 (Z.shiftl x (- hx_amt y)).
Definition asl (r a b : reg) := Op r (op2 asl_val) [a; b].
Definition asr (r a b : reg) := Op r (op2 asr_val) [a; b].

(* hexagon.rs:30-50 atomic_load; no ordering distinctions (hexagon.rs has no fences) *)
Definition hx_load_fn (n a : Z) : fn Z :=
  mkfnl [ Ld n XZ plain Out Src 0 ] (fun f => f Src = a) (fun f => Some (low (8 * n) (f Out))) [Out] [Out].
(* hexagon.rs:51-70 atomic_store *)
Definition hx_store_fn (n a v : Z) : fn unit :=
  mkfn [ St n plain Val Dst 0 ] (fun f => f Dst = a /\ opnd 32 (8 * n) v (f Val)) (fun f => Some tt) [].
(* hexagon.rs:77-103 atomic_swap *)
Definition hx_swap_fn (a v : Z) : fn Z :=
  mkfn [ Lab 2;
           LL 4 XZ plain Out Dst;
           hx_sc Val Dst;
           jump_if_not (B 2) ]
       (fun f => f Dst = a /\ opnd 32 32 v (f Val)) (fun f => Some (low 32 (f Out))) [Out; P0].
(* hexagon.rs:104-142 atomic_compare_exchange *)
Definition hx_cas_fn (a old new : Z) : fn (Z * bool) :=
  mkfn [ Lab 2;
           LL 4 XZ plain Out Dst;
           hx_cmpeq Out Old;
           jump_if_not (F 3);
           hx_sc New Dst;
           jump_if_not (B 2);
           Jmp (F 4);
         Lab 3;
           li R 0;
         Lab 4 ]
       (fun f => f Dst = a /\ opnd 32 32 old (f Old) /\ opnd 32 32 new (f New) /\ f R = 1)
       (fun f => ret_cas 4 (f Out) (f R)) [Out; R; P0].
(* hexagon.rs:149-185 atomic_swap (sub-word); val is zero_extend-ed *)
Definition hx_swap_sub_fn (n a v : Z) : fn Z :=
  let '(dst, shift, mask) := create_sub_word_mask_values A_hexagon LE 32 32 n a in
  mkfn [ asl Val Val Shift;
         Lab 2;
           LL 4 XZ plain Out Dst;
           andn_ Tmp Out Mask;
           or_ Tmp Tmp Val;
           hx_sc Tmp Dst;
           jump_if_not (B 2);
         asr Out Out Shift ]
       (fun f => f Dst = dst /\ f Shift = shift /\ f Mask = mask /\ f Val = v)
       (fun f => Some (low (8 * n) (f Out))) [Val; Out; Tmp; P0].
(* hexagon.rs:186-236 atomic_compare_exchange (sub-word); old and new are zero_extend-ed *)
Definition hx_cas_sub_fn (n a old new : Z) : fn (Z * bool) :=
  let '(dst, shift, mask) := create_sub_word_mask_values A_hexagon LE 32 32 n a in
  mkfn [ asl Old Old Shift;
         asl New New Shift;
         Lab 2;
           LL 4 XZ plain Out Dst;
           and_ Tmp Out Mask;
           hx_cmpeq Tmp Old;
           jump_if_not (F 3);
           andn_ Tmp Out Mask;
           or_ Tmp Tmp New;
           hx_sc Tmp Dst;
           jump_if_not (B 2);
           Jmp (F 4);
         Lab 3;
           li R 0;
         Lab 4;
         asr Out Out Shift ]
       (fun f => f Dst = dst /\ f Shift = shift /\ f Mask = mask /\ f Old = old /\ f New = new /\ f R = 1)
       (fun f => ret_cas n (f Out) (f R)) [Old; New; Out; Tmp; R; P0].

(* ---- 64-bit: r2 = AR2, ..., r7 = AR7 ---- *)
Definition hx_pair (v : Z) (rl rh : reg) (f : regs) : Prop :=
  f rl = pair_lo A_hexagon LE 32 v /\ f rh = pair_hi A_hexagon LE 32 v.
Definition hx_join (lo hi : Z) : Z := pair_join A_hexagon LE 32 lo hi.
(* hexagon.rs:251-272 atomic_load *)
Definition hx_load64_fn (a : Z) : fn Z :=
  mkfn [ hx_memd AR2 AR3 Src ] (fun f => f Src = a) (fun f => Some (hx_join (f AR2) (f AR3))) [AR2; AR3].
(* hexagon.rs:273-294 atomic_store *)
Definition hx_store64_fn (a v : Z) : fn unit :=
  mkfn [ hx_std AR2 AR3 Dst ] (fun f => f Dst = a /\ hx_pair v AR2 AR3 f) (fun f => Some tt) [].
(* hexagon.rs:295-324 atomic_swap *)
Definition hx_swap64_fn (a v : Z) : fn Z :=
  mkfn [ Lab 2;
           LLp true 4 plain AR4 AR5 Dst;
           hx_scd AR2 AR3 Dst;
           jump_if_not (B 2) ]
       (fun f => f Dst = a /\ hx_pair v AR2 AR3 f) (fun f => Some (hx_join (f AR4) (f AR5))) [AR4; AR5; P0].
(* hexagon.rs:325-371 atomic_compare_exchange *)
Definition hx_cas64_fn (a old new : Z) : fn (Z * bool) :=
  mkfn [ Lab 2;
           LLp true 4 plain AR6 AR7 Dst;
           hx_cmpeq AR6 AR2;
           jump_if_not (F 3);
           hx_cmpeq AR7 AR3;
           jump_if_not (F 3);
           hx_scd AR4 AR5 Dst;
           jump_if_not (B 2);
           Jmp (F 4);
         Lab 3;
           li R 0;
         Lab 4 ]
       (fun f => f Dst = a /\ hx_pair old AR2 AR3 f /\ hx_pair new AR4 AR5 f /\ f R = 1)
       (fun f => if (f R =? 0) || (f R =? 1) then Some (hx_join (f AR6) (f AR7), negb (f R =? 0)) else None)
       [AR6; AR7; R; P0].

(* ---- which implementation a type gets: hexagon.rs:240-247, 375-376 (no weak compare_exchange: default = strong) ---- *)
Definition hx_word (n : Z) : bool := (n =? 1) || (n =? 2) || (n =? 4).
Definition hx_sub (n : Z) : bool := (n =? 1) || (n =? 2).
Definition hx_load (n : Z) (o : ordering) (a : Z) : impl (fn Z) :=
  if hx_word n then Impl (hx_load_fn n a) else if n =? 8 then Impl (hx_load64_fn a) else NoImpl.
Definition hx_store (n : Z) (o : ordering) (a v : Z) : impl (fn unit) :=
  if hx_word n then Impl (hx_store_fn n a v) else if n =? 8 then Impl (hx_store64_fn a v) else NoImpl.
Definition hx_swap (n : Z) (o : ordering) (a v : Z) : impl (fn Z) :=
  if hx_sub n then Impl (hx_swap_sub_fn n a v) else if n =? 4 then Impl (hx_swap_fn a v)
  else if n =? 8 then Impl (hx_swap64_fn a v) else NoImpl.
Definition hx_cas (n : Z) (success failure : ordering) (a old new : Z) : impl (fn (Z * bool)) :=
  if hx_sub n then Impl (hx_cas_sub_fn n a old new) else if n =? 4 then Impl (hx_cas_fn a old new)
  else if n =? 8 then Impl (hx_cas64_fn a old new) else NoImpl.
