(* src/arch/m68k.rs (big-endian, 32-bit) *)
From Verif Require Export ArchCommon.

(* ISA: move.b/.w to a data register keeps its upper bits (unspecified here); move.l and move to memory; N, Z, V, C change.
   [FC] stands for the condition codes other than Z *)
Definition mk_ld (n : Z) (r a : reg) :=
  Rmw n plain a (fun _ _ _ => None) (fun _ j v _ => [(r, junk_hi 32 (8 * n) v j); (FZ, b2z (v =? 0)); (FC, j)]).
Definition mk_st (n : Z) (r a : reg) :=
  Rmw n plain a (fun _ _ f => Some (f r)) (fun _ j _ f => [(FZ, b2z (low (8 * n) (f r) =? 0)); (FC, j)]).
(* ISA: cas.sz Dc, Du, (ea): if ea == Dc { Z = 1; ea = Du } else { Z = 0; Dc = ea } *)
Definition mk_cas (n : Z) (dc du ra : reg) :=
  Rmw n plain ra (fun _ v f => if v =? low (8 * n) (f dc) then Some (f du) else None)
    (fun _ j v f => (FC, j) :: if v =? low (8 * n) (f dc) then [(FZ, 1)] else [(FZ, 0); (dc, junk_hi 32 (8 * n) v j)]).
(* ISA: seq Dn: the low byte becomes 0xFF if Z, else 0; the other bits of Dn are unspecified for the u8 operand *)
Definition seq (r : reg) := Op r (fun j l => match l with [z] => junk_hi 32 8 (if z =? 0 then 0 else 255) j | _ => 0 end) [FZ].

(* m68k.rs:30-49 atomic_load *)
Definition mk_load_fn (n a : Z) : fn Z :=
  mkfn [ mk_ld n Out Src ] (fun f => f Src = a) (fun f => Some (low (8 * n) (f Out))) [Out; FZ; FC].
(* m68k.rs:50-69 atomic_store *)
Definition mk_store_fn (n a v : Z) : fn unit :=
  mkfn [ mk_st n Val Dst ] (fun f => f Dst = a /\ opnd 32 (8 * n) v (f Val)) (fun f => Some tt) [FZ; FC].
(* m68k.rs:70-95 atomic_swap *)
Definition mk_swap_fn (n a v : Z) : fn Z :=
  mkfn [ mk_ld n Out Dst;
         Lab 2;
           mk_cas n Out Val Dst;
           bne_z (B 2) ]
       (fun f => f Dst = a /\ opnd 32 (8 * n) v (f Val)) (fun f => Some (low (8 * n) (f Out))) [Out; FZ; FC].
(* m68k.rs:96-124 atomic_compare_exchange; [r] is a u8 *)
Definition mk_cas_fn (n a old new : Z) : fn (Z * bool) :=
  mkfnl [ mk_cas n Out New Dst;
         seq R ]
       (fun f => f Dst = a /\ opnd 32 (8 * n) old (f Out) /\ opnd 32 (8 * n) new (f New))
       (fun f => ret_cas n (f Out) (low 8 (f R))) [Out; R; FZ; FC] [R].

(* ---- which implementation a type gets: m68k.rs:128-135; swap and compare_exchange need isa-68020; no ordering
   distinctions (no weak compare_exchange: default = strong) ---- *)
Definition mk_size (n : Z) : bool := (n =? 1) || (n =? 2) || (n =? 4).
Definition mk_load (n : Z) (o : ordering) (a : Z) : impl (fn Z) := if mk_size n then Impl (mk_load_fn n a) else NoImpl.
Definition mk_store (n : Z) (o : ordering) (a v : Z) : impl (fn unit) := if mk_size n then Impl (mk_store_fn n a v) else NoImpl.
Definition mk_swap (isa_68020 : bool) (n : Z) (o : ordering) (a v : Z) : impl (fn Z) :=
  if isa_68020 && mk_size n then Impl (mk_swap_fn n a v) else NoImpl.
Definition mk_cas_ (isa_68020 : bool) (n : Z) (success failure : ordering) (a old new : Z) : impl (fn (Z * bool)) :=
  if isa_68020 && mk_size n then Impl (mk_cas_fn n a old new) else NoImpl.
