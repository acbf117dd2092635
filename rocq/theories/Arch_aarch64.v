(* src/arch/aarch64.rs (either endianness; ILP32 pointers are zero-extended by ptr_reg!, so the address register
   always holds the address) *)
From Verif Require Export ArchCommon.

(* compile-time configuration: endianness, target_env = "msvc", FEAT_LSE, LSE2, LSE128, LRCPC, LRCPC3 *)
Record aa_cfg := { aa_e : endian; aa_msvc : bool; aa_lse : bool; aa_lse2 : bool; aa_lse128 : bool;
                   aa_rcpc : bool; aa_rcpc3 : bool }.

(* $acquire, $release, $fence *)
Definition aa_suf := (bool * bool * fence)%type.
(* aarch64.rs:43-62 atomic_rmw!($op, $order, write = $write) *)
Definition aa_rmw_tbl (c : aa_cfg) (order write : ordering) : option aa_suf :=
  match order with
  | Relaxed => Some (false, false, FNone)
  | Acquire => Some (true, false, FNone)
  | Release => Some (false, true, FNone)
  | AcqRel => Some (true, true, FNone)
  | SeqCst => if aa_msvc c && (match write with SeqCst => true | _ => false end)
              then Some (true, true, FDmb) else Some (true, true, FNone)
  end.
Definition a_ld (a : bool) := mkacc a false false.
Definition a_st (l : bool) := mkacc false l false.
Definition a_rmw (a l : bool) := mkacc a l false.

(* "{x:w}" = 32-bit view, "{x}" = 64-bit view: aarch64.rs:317-331 $val_modifier *)
Definition aa_view (n : Z) : Z := if n =? 8 then 64 else 32.
(* ISA: ldr/ldar/ldapr/ldxr zero-extend; str/stlr/stxr store the low bytes; store-exclusive writes 0/1 *)
Definition aa_stxr (n : Z) (l : bool) (rst rv ra : reg) := SC n (a_st l) rst 0 (fun _ => 1) rv ra.
Definition aa_stxp (l : bool) (rst r1 r2 ra : reg) := SCp 8 (a_st l) rst 0 (fun _ => 1) r1 r2 ra.
Definition aa_ldxp (a : bool) (r1 r2 ra : reg) := LLp false 8 (a_ld a) r1 r2 ra.
(* ISA: cmp {out}, {old}{, uxtb|uxth}: aarch64.rs:317-331 $cmp_ext *)
Definition aa_cmp (n : Z) (ro rv : reg) :=
  Op FZ (op2 (fun x y => b2z (low (aa_view n) x =? low (8 * n) y))) [ro; rv].
Definition cset_eq (r : reg) := Op r (op1 (fun z => z)) [FZ].
Definition cset_ne (r : reg) := Op r (op1 (fun z => 1 - z)) [FZ].
Definition cinc_ne (r a : reg) := Op r (op2 (fun x z => low 32 (x + (1 - z)))) [a; FZ].
(* ISA: swp: out := memory zero-extended, memory := val *)
Definition aa_swp (n : Z) (t : aa_suf) (rv ro ra : reg) :=
  let '(a, l, _) := t in
  Rmw n (a_rmw a l) ra (fun _ _ f => Some (f rv)) (fun _ _ v _ => [(ro, v)]).
(* ISA: cas: compare with the low bytes of [rs]; [rs] := memory zero-extended *)
Definition aa_casi (n : Z) (t : aa_suf) (rs rn ra : reg) :=
  let '(a, l, _) := t in
  Rmw n (a_rmw a l) ra (fun _ v f => if low (8 * n) (f rs) =? v then Some (f rn) else None)
      (fun _ _ v _ => [(rs, v)]).
(* ISA: casp / swpp / ldp / stp with FEAT_LSE2 on 16 aligned bytes *)
Definition aa_casp (e : endian) (a l : bool) (r1 r2 n1 n2 ra : reg) :=
  Rmw 16 (a_rmw a l) ra
    (fun _ v f => if halves e 64 (f r1) (f r2) =? v then Some (halves e 64 (f n1) (f n2)) else None)
    (fun _ _ v _ => [(r1, half1 e 64 v); (r2, half2 e 64 v)]).
Definition aa_swpp (e : endian) (a l : bool) (r1 r2 ra : reg) :=
  Rmw 16 (a_rmw a l) ra (fun _ _ f => Some (halves e 64 (f r1) (f r2)))
    (fun _ _ v _ => [(r1, half1 e 64 v); (r2, half2 e 64 v)]).
Definition aa_ldp (e : endian) (o : acc) (r1 r2 ra : reg) :=
  Rmw 16 o ra (fun _ _ _ => None) (fun _ _ v _ => [(r1, half1 e 64 v); (r2, half2 e 64 v)]).
Definition aa_stp (e : endian) (o : acc) (r1 r2 ra : reg) :=
  Rmw 16 o ra (fun _ _ f => Some (halves e 64 (f r1) (f r2))) (fun _ _ _ _ => []).

(* aarch64.rs:87-97 order table of atomic_load *)
Definition aa_load_tbl (c : aa_cfg) (o : ordering) : option acc :=
  match o with
  | Relaxed => Some plain
  | Acquire => Some (if aa_rcpc c then acqpc else acq)
  | SeqCst => Some acq
  | _ => None end.
(* aarch64.rs:122-134 order table of atomic_store *)
Definition aa_store_tbl (c : aa_cfg) (o : ordering) : option (bool * fence) :=
  match o with
  | Relaxed => Some (false, FNone)
  | Release => Some (true, FNone)
  | SeqCst => Some (true, if aa_msvc c then FDmb else FNone)
  | _ => None end.

(* aarch64.rs:67-101 atomic_load *)
Definition aa_load_fn (n a : Z) (t : acc) : fn Z :=
  mkfnl [ Ld n XZ t Out Src 0 ] (fun f => f Src = a) (fun f => Some (low (8 * n) (f Out))) [Out] [Out].
(* aarch64.rs:102-138 atomic_store *)
Definition aa_store_fn (n a v : Z) (t : bool * fence) : fn unit :=
  mkfn [ St n (a_st (fst t)) Val Dst 0; Fence (snd t) ]
       (fun f => f Dst = a /\ opnd 64 (8 * n) v (f Val)) (fun f => Some tt) [].
(* aarch64.rs:139-189 atomic_swap *)
Definition aa_swap_fn (c : aa_cfg) (n a v : Z) (t : aa_suf) : fn Z :=
  let '(ac, re, fe) := t in
  let pre f := f Dst = a /\ opnd 64 (8 * n) v (f Val) in
  if aa_lse c then
    mkfnl [ aa_swp n t Val Out Dst; Fence fe ] pre (fun f => Some (low (8 * n) (f Out))) [Out] [Out]
  else
    mkfn [ Lab 2;
             LL n XZ (a_ld ac) Out Dst;
             aa_stxr n re R Val Dst;
             bnez_ R (B 2);
           Fence fe ] pre (fun f => Some (low (8 * n) (f Out))) [Out; R].
(* 0 if the store was successful, 1 if no store was performed: assert_unchecked(r == 0 || r == 1); (out, r == 0) *)
Definition ret_cas0 (n out r : Z) : option (Z * bool) :=
  if (r =? 0) || (r =? 1) then Some (low (8 * n) out, r =? 0) else None.
(* aarch64.rs:190-264 atomic_compare_exchange *)
Definition aa_cas_fn (c : aa_cfg) (n a old new : Z) (t : aa_suf) : fn (Z * bool) :=
  let '(ac, re, fe) := t in
  let pre f := f Dst = a /\ opnd 64 (8 * n) old (f Old) /\ opnd 64 (8 * n) new (f New) in
  if aa_lse c then
    mkfnl [ Op Out (op1 (low (aa_view n))) [Old];
           aa_casi n t Out New Dst;
           Fence fe;
           aa_cmp n Out Old;
           cset_eq R ] pre (fun f => ret_cas n (f Out) (f R)) [Out; R; FZ; FC] [R]
  else
    mkfn [ Lab 2;
             LL n XZ (a_ld ac) Out Dst;
             aa_cmp n Out Old;
             bne_z (F 3);
             aa_stxr n re R New Dst;
             bnez_ R (B 2);
             Fence fe;
             Jmp (F 4);
           Lab 3;
             li R 1;
             Clrex;
           Lab 4 ] pre (fun f => ret_cas0 n (f Out) (f R)) [Out; R; FZ; FC].
(* aarch64.rs:265-312 atomic_compare_exchange_weak (without FEAT_LSE; with it the default = strong) *)
Definition aa_casw_fn (n a old new : Z) (t : aa_suf) : fn (Z * bool) :=
  let '(ac, re, fe) := t in
  mkfn [ LL n XZ (a_ld ac) Out Dst;
         aa_cmp n Out Old;
         bne_z (F 3);
         aa_stxr n re R New Dst;
         Fence fe;
         Jmp (F 4);
         Lab 3;
           li R 1;
           Clrex;
         Lab 4 ]
       (fun f => f Dst = a /\ opnd 64 (8 * n) old (f Old) /\ opnd 64 (8 * n) new (f New))
       (fun f => ret_cas0 n (f Out) (f R)) [Dst; Out; R; FZ; FC].

(* ---- 128-bit: prev_lo/prev_hi = Out/OutHi, val = Val/ValHi, old = Old/OldHi, new = New/NewHi ---- *)
Definition aa_join (e : endian) (lo hi : Z) : Z := pair_join A_aarch64 e 64 lo hi.
Inductive aa_load128 :=
| L128p (o : acc) (fe : fence)          (* atomic_load_relaxed!($iap, $dmb_ishld)   379-391 *)
| L128sc (o : acc) (fe : fence)         (* ldar + ldiapp / ldar + ldp + dmb ishld   396-432 *)
| L128x (ac re : bool).                 (* casp or ldxp/stxp                        436-470 *)
(* aarch64.rs:392-433, 467-472: order tables of atomic_load *)
Definition aa_load128_tbl (c : aa_cfg) (o : ordering) : option aa_load128 :=
  if aa_lse2 c then
    match o with
    | Relaxed => Some (L128p plain FNone)
    | Acquire => Some (if aa_rcpc3 c then L128p acqpc FNone else L128p plain FDmbLd)
    | SeqCst => Some (if aa_rcpc3 c then L128sc acqpc FNone else L128sc plain FDmbLd)
    | _ => None end
  else
    match o with
    | Relaxed => Some (L128x false false)
    | Acquire => Some (L128x true false)
    | SeqCst => Some (L128x true true)
    | _ => None end.
(* aarch64.rs:361-476 atomic_load; for casp, x2/x3 = Out/OutHi *)
Definition aa_load128_fn (c : aa_cfg) (a : Z) (t : aa_load128) : fn Z :=
  let e := aa_e c in
  let out f := Some (aa_join e (f Out) (f OutHi)) in
  match t with
  | L128p o fe => mkfnl [ aa_ldp e o Out OutHi Src; Fence fe ] (fun f => f Src = a) out [Out; OutHi] [Out; OutHi]
  | L128sc o fe => mkfnl [ Ld 8 XZ acq Tmp Src 0; aa_ldp e o Out OutHi Src; Fence fe ] (fun f => f Src = a) out [Out; OutHi; Tmp] [Out; OutHi]
  | L128x ac re =>
      if aa_lse c then
        mkfn [ aa_casp e ac re Out OutHi Out OutHi Src ]
             (fun f => f Src = a /\ f Out = 0 /\ f OutHi = 0) out [Out; OutHi]
      else
        mkfn [ Lab 2;
                 aa_ldxp ac Out OutHi Src;
                 aa_stxp re R Out OutHi Src;
                 bnez_ R (B 2) ] (fun f => f Src = a) out [Out; OutHi; R]
  end.
Inductive aa_store128 :=
| S128p (o : acc) (fa fr : fence)       (* atomic_store!($il, $acquire, $release)    496-508 *)
| S128swpp (t : aa_suf)                 (* atomic_store_swpp!                        512-523 *)
| S128x (t : aa_suf).                   (* store!                                    560-575 *)
(* aarch64.rs:525-555, 576: order tables of atomic_store *)
Definition aa_store128_tbl (c : aa_cfg) (o : ordering) : option aa_store128 :=
  let swpp := match aa_rmw_tbl c o o with Some t => Some (S128swpp t) | None => None end in
  if aa_lse2 c then
    match o with
    | Relaxed => Some (S128p plain FNone FNone)
    | Release => if aa_rcpc3 c then Some (S128p rel FNone FNone)
                 else if aa_lse128 c then swpp
                 else Some (S128p plain FNone FDmb)
    | SeqCst => if aa_lse128 c then swpp
                else if aa_rcpc3 c then Some (S128p rel FDmb FNone)
                else Some (S128p plain FDmb FDmb)
    | _ => None end
  else match aa_rmw_tbl c o o with Some t => Some (S128x t) | None => None end.
Definition pair_pre (e : endian) (v : Z) (rl rh : reg) (f : regs) : Prop :=
  f rl = pair_lo A_aarch64 e 64 v /\ f rh = pair_hi A_aarch64 e 64 v.
(* aarch64.rs:477-579 atomic_store; AR0 stands for xzr as the destination of ldxp *)
Definition aa_store128_fn (c : aa_cfg) (a v : Z) (t : aa_store128) : fn unit :=
  let e := aa_e c in
  let pre f := f Dst = a /\ pair_pre e v Val ValHi f in
  match t with
  | S128p o fa fr => mkfn [ Fence fr; aa_stp e o Val ValHi Dst; Fence fa ] pre (fun f => Some tt) []
  | S128swpp (ac, re, fe) => mkfn [ aa_swpp e ac re Val ValHi Dst; Fence fe ] pre (fun f => Some tt) [Val; ValHi]
  | S128x (ac, re, fe) =>
      mkfn [ Lab 2;
               aa_ldxp ac AR0 Tmp Dst;
               aa_stxp re Tmp Val ValHi Dst;
               bnez_ Tmp (B 2);
             Fence fe ] pre (fun f => Some tt) [Tmp; AR0]
  end.
(* aarch64.rs:580-629 atomic_swap *)
Definition aa_swap128_fn (c : aa_cfg) (a v : Z) (t : aa_suf) : fn Z :=
  let e := aa_e c in
  let '(ac, re, fe) := t in
  let pre f := f Dst = a /\ pair_pre e v Val ValHi f in
  if aa_lse128 c then
    mkfn [ aa_swpp e ac re Val ValHi Dst; Fence fe ] pre (fun f => Some (aa_join e (f Val) (f ValHi))) [Val; ValHi]
  else
    mkfn [ Lab 2;
             aa_ldxp ac Out OutHi Dst;
             aa_stxp re R Val ValHi Dst;
             bnez_ R (B 2);
           Fence fe ] pre (fun f => Some (aa_join e (f Out) (f OutHi))) [Out; OutHi; R].
(* ISA: ccmp a, b, #0, eq *)
Definition ccmp_eq (a b : reg) :=
  Op FZ (op3 (fun z x y => if z =? 1 then b2z (low 64 x =? low 64 y) else 0)) [FZ; a; b].
(* aarch64.rs:630-729 atomic_compare_exchange; with FEAT_LSE x8/x9 = Out/OutHi, x4/x5 = New/NewHi *)
Definition aa_cas128_fn (c : aa_cfg) (a old new : Z) (t : aa_suf) : fn (Z * bool) :=
  let e := aa_e c in
  let '(ac, re, fe) := t in
  let pre f := f Dst = a /\ pair_pre e old Old OldHi f /\ pair_pre e new New NewHi f in
  if aa_lse c then
    mkfnl [ mov Out Old;
           mov OutHi OldHi;
           aa_casp e ac re Out OutHi New NewHi Dst;
           Fence fe;
           cmpz 64 Out Old;
           ccmp_eq OutHi OldHi;
           cset_eq R ] pre
         (fun f => if (f R =? 0) || (f R =? 1) then Some (aa_join e (f Out) (f OutHi), negb (f R =? 0)) else None)
         [Out; OutHi; R; FZ; FC] [R]
  else
    mkfn [ Lab 2;
             aa_ldxp ac Out OutHi Dst;
             cmpz 64 Out Old;
             cset_ne R;
             cmpz 64 OutHi OldHi;
             cinc_ne R R;
             beqz_ R (F 3);
             aa_stxp re R Out OutHi Dst;
             bnez_ R (B 2);
             li R 1;
             Jmp (F 4);
           Lab 3;
             aa_stxp re R New NewHi Dst;
             bnez_ R (B 2);
           Lab 4;
           Fence fe ] pre
         (fun f => if (f R =? 0) || (f R =? 1) then Some (aa_join e (f Out) (f OutHi), f R =? 0) else None)
         [Out; OutHi; R; FZ; FC].

(* ---- which implementation a type gets: aarch64.rs:317-331, 733-734 ---- *)
Definition aa_word (n : Z) : bool := (n =? 1) || (n =? 2) || (n =? 4) || (n =? 8).
Definition aa_load (c : aa_cfg) (n : Z) (o : ordering) (a : Z) : impl (fn Z) :=
  if aa_word n then with_table (aa_load_tbl c o) (aa_load_fn n a)
  else if n =? 16 then with_table (aa_load128_tbl c o) (aa_load128_fn c a) else NoImpl.
Definition aa_store (c : aa_cfg) (n : Z) (o : ordering) (a v : Z) : impl (fn unit) :=
  if aa_word n then with_table (aa_store_tbl c o) (aa_store_fn n a v)
  else if n =? 16 then with_table (aa_store128_tbl c o) (aa_store128_fn c a v) else NoImpl.
Definition aa_swap (c : aa_cfg) (n : Z) (o : ordering) (a v : Z) : impl (fn Z) :=
  if aa_word n then with_table (aa_rmw_tbl c o o) (aa_swap_fn c n a v)
  else if n =? 16 then with_table (aa_rmw_tbl c o o) (aa_swap128_fn c a v) else NoImpl.
Definition aa_cas (c : aa_cfg) (n : Z) (success failure : ordering) (a old new : Z) : impl (fn (Z * bool)) :=
  let order := upgrade_success_ordering success failure in
  if aa_word n then with_table (aa_rmw_tbl c order success) (aa_cas_fn c n a old new)
  else if n =? 16 then with_table (aa_rmw_tbl c order success) (aa_cas128_fn c a old new) else NoImpl.
Definition aa_casw (c : aa_cfg) (n : Z) (success failure : ordering) (a old new : Z) : impl (fn (Z * bool)) :=
  let order := upgrade_success_ordering success failure in
  if aa_word n then
    if aa_lse c then aa_cas c n success failure a old new
    else with_table (aa_rmw_tbl c order success) (aa_casw_fn n a old new)
  else aa_cas c n success failure a old new.
