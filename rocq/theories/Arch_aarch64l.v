(* src/arch_legacy/aarch64.rs; val, old, new (addresses of the private buffers) = [AR1], [AR2], [AR3]; val_tmp, old_tmp, new_tmp, out_tmp = [Val], [Old], [New], [Out].
   ptr_reg! (zero-extension of ILP32 pointers): an address register holds exactly the address. *)
From Verif Require Export Legacy Arch_aarch64.

(* atomic_rmw! (40-59) = [aa_rmw_tbl]; order tables of atomic_load (90-108) = [aa_load_tbl], atomic_store (142-153) = [aa_store_tbl] *)
(* assert_unchecked(r == 0 || r == 1); (out, r == 0) *)
Definition ret_cas0_l (out r : Z) : option (Z * bool) := if (r =? 0) || (r =? 1) then Some (out, r =? 0) else None.
(* "cmp {out_tmp}, {old_tmp}" on the :w / x views *)
Definition aal_cmp (n : Z) (ro rv : reg) := cmpz (aa_view n) ro rv.

(* 63-113 atomic_load *)
Definition aal_load_fn (b : bufs) (n a : Z) (t : acc) : fn Z :=
  mkfnl [ Ld n XZ t Out Src 0; pst (b_out b) n OutB Out OutP ] (fun f => f Src = a /\ f OutP = b_out b) (fun f => Some (f OutB)) [Out; OutP; OutB] [Out].
(* 114-155 atomic_store *)
Definition aal_store_fn (b : bufs) (n a v : Z) (t : bool * fence) : fn unit :=
  mkfnl [ pld (b_val b) v Val AR1; St n (a_st (fst t)) Val Dst 0; Fence (snd t) ]
       (fun f => f Dst = a /\ f AR1 = b_val b) (fun f => Some tt) [Dst; Val] [Val].
(* 156-224 atomic_swap *)
Definition aal_swap_fn (c : aa_cfg) (b : bufs) (n a v : Z) (t : aa_suf) : fn Z :=
  let '(ac, re, fe) := t in
  let pre f := f Dst = a /\ f AR1 = b_val b /\ f OutP = b_out b in
  if aa_lse c then
    mkfnl [ pld (b_val b) v Val AR1; aa_swp n t Val Val Dst; Fence fe; pst (b_out b) n OutB Val OutP ] pre (fun f => Some (f OutB)) [Dst; Val; OutP; OutB] [Val]
  else
    mkfnl [ pld (b_val b) v Val AR1;
           Lab 2;
             LL n XZ (a_ld ac) Out Dst;
             aa_stxr n re R Val Dst;
             bnez_ R (B 2);
           Fence fe;
           pst (b_out b) n OutB Out OutP ] pre (fun f => Some (f OutB)) [Dst; Val; Out; R; OutP; OutB] [R].
(* 225-321 atomic_compare_exchange *)
Definition aal_cas_fn (c : aa_cfg) (b : bufs) (n a old new : Z) (t : aa_suf) : fn (Z * bool) :=
  let '(ac, re, fe) := t in
  let pre f := f Dst = a /\ f AR2 = b_old b /\ f AR3 = b_new b /\ f OutP = b_out b in
  if aa_lse c then
    mkfnl [ pld (b_old b) old Old AR2;
           pld (b_new b) new New AR3;
           Op Out (op1 (low (aa_view n))) [Old];
           aa_casi n t Out New Dst;
           Fence fe;
           aal_cmp n Out Old;
           pst (b_out b) n OutB Out OutP;
           cset_eq R ] pre (fun f => ret_cas_l (f OutB) (f R)) [Dst; Old; New; Out; OutP; OutB; R; FZ; FC] [R]
  else
    mkfnl [ pld (b_new b) new New AR3;
           pld (b_old b) old Old AR2;
           Lab 2;
             LL n XZ (a_ld ac) Out Dst;
             aal_cmp n Out Old;
             bne_z (F 3);
             aa_stxr n re R New Dst;
             bnez_ R (B 2);
             Fence fe;
             Jmp (F 4);
           Lab 3;
             li R 1;
             Clrex;
           Lab 4;
           pst (b_out b) n OutB Out OutP ] pre (fun f => ret_cas0_l (f OutB) (f R)) [Dst; Old; New; Out; OutP; OutB; R; FZ; FC] [R].
(* 322-381 atomic_compare_exchange_weak (without FEAT_LSE; with it the default = strong) *)
Definition aal_casw_fn (b : bufs) (n a old new : Z) (t : aa_suf) : fn (Z * bool) :=
  let '(ac, re, fe) := t in
  mkfnl [ pld (b_new b) new New AR3;
         pld (b_old b) old Old AR2;
         LL n XZ (a_ld ac) Out Dst;
         aal_cmp n Out Old;
         bne_z (F 3);
         aa_stxr n re R New Dst;
         Fence fe;
         Jmp (F 4);
         Lab 3;
           li R 1;
           Clrex;
         Lab 4;
         pst (b_out b) n OutB Out OutP ]
       (fun f => f Dst = a /\ f AR2 = b_old b /\ f AR3 = b_new b /\ f OutP = b_out b)
       (fun f => ret_cas0_l (f OutB) (f R)) [Dst; Old; New; Out; OutP; OutB; R; FZ; FC] [R].

(* ---- 128-bit (403-862) ---- *)
(* ldp / stp on a private buffer: the first register has the first eight bytes *)
Definition aal_pldp (e : endian) (p v : Z) (r1 r2 ar : reg) := pldp p (half1 e 64 v) (half2 e 64 v) r1 r2 ar.
Definition aal_out (e : endian) (f : regs) : Z := halves e 64 (f OutB) (f OutBHi).
(* 467-506, 553-558: order tables of atomic_load *)
Definition aal_load128_tbl (c : aa_cfg) (o : ordering) : option aa_load128 :=
  if aa_lse2 c then
    match o with
    | Relaxed => Some (L128p plain FNone)
    | Acquire => Some (if aa_rcpc3 c then L128p acqpc FNone else L128p plain FDmbLd)
    | SeqCst => Some (L128sc plain FDmbLd)
    | _ => None end
  else
    match o with
    | Relaxed => Some (L128x false false)
    | Acquire => Some (L128x true false)
    | SeqCst => Some (L128x true true)
    | _ => None end.
(* 431-562 atomic_load; for casp, x2/x3 = [Out]/[OutHi] *)
Definition aal_load128_fn (c : aa_cfg) (b : bufs) (a : Z) (t : aa_load128) : fn Z :=
  let e := aa_e c in
  let out f := Some (aal_out e f) in
  let st := pstp (b_out b) 8 Out OutHi OutP in
  let pre f := f Src = a /\ f OutP = b_out b in
  match t with
  | L128p o fe => mkfn [ aa_ldp e o Out OutHi Src; Fence fe; st ] pre out [Out; OutHi; OutB; OutBHi]
  | L128sc o fe => mkfn [ Ld 8 XZ acq Tmp Src 0; aa_ldp e o Out OutHi Src; Fence fe; st ] pre out [Out; OutHi; Tmp; OutB; OutBHi]
  | L128x ac re =>
      if aa_lse c then
        mkfn [ aa_casp e ac re Out OutHi Out OutHi Src; st ]
             (fun f => f Src = a /\ f OutP = b_out b /\ f Out = 0 /\ f OutHi = 0) out [Out; OutHi; OutB; OutBHi]
      else
        mkfn [ Lab 2;
                 aa_ldxp ac Out OutHi Src;
                 aa_stxp re R Out OutHi Src;
                 bnez_ R (B 2);
               st ] pre out [Out; OutHi; R; OutB; OutBHi]
  end.
(* 618-646, 674: order tables of atomic_store *)
Definition aal_store128_tbl (c : aa_cfg) (o : ordering) : option aa_store128 :=
  let swpp := match aa_rmw_tbl c o o with Some t => Some (S128swpp t) | None => None end in
  if aa_lse2 c then
    match o with
    | Relaxed => Some (S128p plain FNone FNone)
    | Release => if aa_rcpc3 c then Some (S128p rel FNone FNone)
                 else if aa_lse128 c then swpp
                 else Some (S128p plain FNone FDmb)
    | SeqCst => if aa_lse128 c then swpp else Some (S128p plain FDmb FDmb)
    | _ => None end
  else match aa_rmw_tbl c o o with Some t => Some (S128x t) | None => None end.
(* 563-678 atomic_store; [AR0] stands for xzr as the destination of ldxp *)
Definition aal_store128_fn (c : aa_cfg) (b : bufs) (a v : Z) (t : aa_store128) : fn unit :=
  let e := aa_e c in
  let ld := aal_pldp e (b_val b) v Val ValHi AR1 in
  let pre f := f Dst = a /\ f AR1 = b_val b in
  match t with
  | S128p o fa fr => mkfn [ ld; Fence fr; aa_stp e o Val ValHi Dst; Fence fa ] pre (fun f => Some tt) [Val; ValHi]
  | S128swpp (ac, re, fe) => mkfn [ ld; aa_swpp e ac re Val ValHi Dst; Fence fe ] pre (fun f => Some tt) [Val; ValHi]
  | S128x (ac, re, fe) =>
      mkfnl [ ld;
             Lab 2;
               aa_ldxp ac AR0 Tmp Dst;
               aa_stxp re Tmp Val ValHi Dst;
               bnez_ Tmp (B 2);
             Fence fe ] pre (fun f => Some tt) [Dst; Val; ValHi; Tmp; AR0] [Tmp]
  end.
(* 679-746 atomic_swap *)
Definition aal_swap128_fn (c : aa_cfg) (b : bufs) (a v : Z) (t : aa_suf) : fn Z :=
  let e := aa_e c in
  let '(ac, re, fe) := t in
  let ld := aal_pldp e (b_val b) v Val ValHi AR1 in
  let pre f := f Dst = a /\ f AR1 = b_val b /\ f OutP = b_out b in
  if aa_lse128 c then
    mkfn [ ld; aa_swpp e ac re Val ValHi Dst; Fence fe; pstp (b_out b) 8 Val ValHi OutP ] pre (fun f => Some (aal_out e f)) [Val; ValHi; OutB; OutBHi]
  else
    mkfnl [ ld;
           Lab 2;
             aa_ldxp ac Out OutHi Dst;
             aa_stxp re R Val ValHi Dst;
             bnez_ R (B 2);
           Fence fe;
           pstp (b_out b) 8 Out OutHi OutP ] pre (fun f => Some (aal_out e f)) [Dst; Val; ValHi; Out; OutHi; R; OutP; OutB; OutBHi] [R].
(* 747-856 atomic_compare_exchange; with FEAT_LSE x8/x9 = [Out]/[OutHi], x4/x5 = [New]/[NewHi] *)
Definition aal_cas128_fn (c : aa_cfg) (b : bufs) (a old new : Z) (t : aa_suf) : fn (Z * bool) :=
  let e := aa_e c in
  let '(ac, re, fe) := t in
  let pre f := f Dst = a /\ f AR2 = b_old b /\ f AR3 = b_new b /\ f OutP = b_out b in
  if aa_lse c then
    mkfnl [ aal_pldp e (b_old b) old Old OldHi AR2;
           aal_pldp e (b_new b) new New NewHi AR3;
           mov Out Old;
           mov OutHi OldHi;
           aa_casp e ac re Out OutHi New NewHi Dst;
           Fence fe;
           cmpz 64 Out Old;
           ccmp_eq OutHi OldHi;
           cset_eq R;
           pstp (b_out b) 8 Out OutHi OutP ] pre
         (fun f => ret_cas_l (aal_out e f) (f R)) [Old; OldHi; New; NewHi; Out; OutHi; R; OutP; OutB; OutBHi; FZ; FC] [R]
  else
    mkfnl [ aal_pldp e (b_new b) new New NewHi AR3;
           aal_pldp e (b_old b) old Old OldHi AR2;
           Lab 2;
             aa_ldxp ac Out OutHi Dst;
             cmpz 64 Out Old;
             cset_ne R;
             cmpz 64 OutHi OldHi;
             cinc_ne R R;
             beqz_ R (F 3);
             aa_stxp re R Out OutHi Dst;
             bnez_ R (B 2);
             li R 1;
             Jmp (F 4);
           Lab 3;
             aa_stxp re R New NewHi Dst;
             bnez_ R (B 2);
           Lab 4;
           Fence fe;
           pstp (b_out b) 8 Out OutHi OutP ] pre
         (fun f => ret_cas0_l (aal_out e f) (f R)) [Dst; Old; OldHi; New; NewHi; Out; OutHi; R; OutP; OutB; OutBHi; FZ; FC] [R].

(* ---- which implementation a type gets: 386-401, 861-862 ---- *)
Definition aal_load (c : aa_cfg) (b : bufs) (n : Z) (o : ordering) (a : Z) : impl (fn Z) :=
  if aa_word n then with_table (aa_load_tbl c o) (aal_load_fn b n a)
  else if n =? 16 then with_table (aal_load128_tbl c o) (aal_load128_fn c b a) else NoImpl.
Definition aal_store (c : aa_cfg) (b : bufs) (n : Z) (o : ordering) (a v : Z) : impl (fn unit) :=
  if aa_word n then with_table (aa_store_tbl c o) (aal_store_fn b n a v)
  else if n =? 16 then with_table (aal_store128_tbl c o) (aal_store128_fn c b a v) else NoImpl.
Definition aal_swap (c : aa_cfg) (b : bufs) (n : Z) (o : ordering) (a v : Z) : impl (fn Z) :=
  if aa_word n then with_table (aa_rmw_tbl c o o) (aal_swap_fn c b n a v)
  else if n =? 16 then with_table (aa_rmw_tbl c o o) (aal_swap128_fn c b a v) else NoImpl.
Definition aal_cas (c : aa_cfg) (b : bufs) (n : Z) (success failure : ordering) (a old new : Z) : impl (fn (Z * bool)) :=
  let order := upgrade_success_ordering success failure in
  if aa_word n then with_table (aa_rmw_tbl c order success) (aal_cas_fn c b n a old new)
  else if n =? 16 then with_table (aa_rmw_tbl c order success) (aal_cas128_fn c b a old new) else NoImpl.
Definition aal_casw (c : aa_cfg) (b : bufs) (n : Z) (success failure : ordering) (a old new : Z) : impl (fn (Z * bool)) :=
  let order := upgrade_success_ordering success failure in
  if aa_word n then
    if aa_lse c then aal_cas c b n success failure a old new
    else with_table (aa_rmw_tbl c order success) (aal_casw_fn b n a old new)
  else aal_cas c b n success failure a old new.
