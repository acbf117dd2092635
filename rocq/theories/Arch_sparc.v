(* src/arch/sparc.rs (SPARC V8 with leoncasa, V8+ = V9 with a 32-bit ABI, sparc64; big-endian) *)
From Verif Require Export ArchCommon.

(* [sp_w] = bits of the Rust-visible registers (RegSize, usize); [sp_v9] = cfg of the V9 macros (sparc.rs:28-32).
   Not modelled: the nops and .p2align of leon_nop!/leon_align! (87-121) and the nop in the delay slot of bne! (48-64). *)
Record sp_cfg := { sp_w : Z; sp_v9 : bool }.
Definition sp_wf (c : sp_cfg) : Prop := (sp_w c = 64 /\ sp_v9 c = true) \/ sp_w c = 32.
Definition sp_arch (c : sp_cfg) : tarch := if sp_w c =? 64 then A_sparc64 else A_sparc.
(* physical register width *)
Definition sp_pw (c : sp_cfg) : Z := if sp_v9 c then 64 else 32.

(* ISA: cas/casx/casa [dst], rs2, rd: compare the low [sz] bytes of rs2, store rd if equal, rd = zero-extended old value *)
Definition sp_cas_i (sz : Z) (ra rs2 rd_ : reg) :=
  Rmw sz plain ra (fun _ v f => if v =? low (8 * sz) (f rs2) then Some (f rd_) else None) (fun _ _ v _ => [(rd_, v)]).
(* ISA: cmp sets icc from the low 32 bits and xcc from all 64; bne %icc / %xcc *)
(* sparc.rs:67-86 move_!: if cc.Z { rd = v } *)
Definition sp_move (c : sp_cfg) (v : Z) (r : reg) : list instr :=
  if sp_v9 c then [ Op r (op2 (fun x z => if z =? 0 then x else v)) [r; FZ] ]
  else [ bne_z (F 99); li r v; Lab 99 ].
(* ISA: sll shifts the whole physical register by the low 5 bits of the amount; srl zero-extends the low 32 bits first *)
Definition sp_sll_val (pw x s : Z) : Z := low pw (Z.shiftl x (s mod 32)).
Definition sp_srl_val (x s : Z) : Z := Z.shiftr (low 32 x) (s mod 32).
Definition sp_sll (c : sp_cfg) (r a b : reg) := Op r (op2 (sp_sll_val (sp_pw c))) [a; b].
Definition sp_srl (r a b : reg) := Op r (op2 sp_srl_val) [a; b].

(* sparc.rs:123-164 atomic_rmw! (acquire, release) *)
Definition sp_rmw_tbl (c : sp_cfg) (o : ordering) : option (fence * fence) :=
  if sp_v9 c then
    match o with
    | Relaxed => Some (FNone, FNone)
    | Acquire => Some (FMembar 15, FNone)
    | Release => Some (FNone, FMembar 15)
    | AcqRel | SeqCst => Some (FMembar 15, FMembar 15)
    end
  else
    match o with
    | Relaxed => Some (FNone, FNone)
    | Acquire => Some (FStbar, FNone)
    | Release => Some (FNone, FStbarLdstub)
    | AcqRel | SeqCst => Some (FStbar, FStbarLdstub)
    end.
(* sparc.rs:192-221 *)
Definition sp_load_tbl (c : sp_cfg) (o : ordering) : option (fence * fence) :=
  if sp_v9 c then
    match o with
    | Relaxed => Some (FNone, FNone)
    | Acquire => Some (FMembar 5, FNone)
    | SeqCst => Some (FMembar 5, FMembar 3)
    | _ => None
    end
  else
    match o with
    | Relaxed => Some (FNone, FNone)
    | Acquire => Some (FStbar, FNone)
    | SeqCst => Some (FStbar, FLdstub)
    | _ => None
    end.
(* sparc.rs:250-280 *)
Definition sp_store_tbl (c : sp_cfg) (o : ordering) : option (fence * fence) :=
  if sp_v9 c then
    match o with
    | Relaxed => Some (FNone, FNone)
    | Release => Some (FNone, FMembar 12)
    | SeqCst => Some (FMembar 10, FMembar 12)
    | _ => None
    end
  else
    match o with
    | Relaxed => Some (FNone, FNone)
    | Release => Some (FNone, FStbar)
    | SeqCst => Some (FStbarLdstub, FStbar)
    | _ => None
    end.

(* sparc.rs:169-224 atomic_load; ISA: ld/ldub/lduh/ldx zero-extend *)
Definition sp_load_fn (n a : Z) (t : fence * fence) : fn Z :=
  let '(acquire, release) := t in
  mkfnl [ Fence release; Ld n XZ plain Out Src 0; Fence acquire ]
       (fun f => f Src = a) (fun f => Some (low (8 * n) (f Out))) [Out] [Out].
(* sparc.rs:225-283 atomic_store *)
Definition sp_store_fn (c : sp_cfg) (n a v : Z) (t : fence * fence) : fn unit :=
  let '(acquire, release) := t in
  mkfn [ Fence release; St n plain Val Dst 0; Fence acquire ]
       (fun f => f Dst = a /\ opnd (sp_pw c) (8 * n) v (f Val)) (fun f => Some tt) [].
(* sparc.rs:291-329 atomic_swap; Do not preserve flags: FZ *)
Definition sp_swap_fn (c : sp_cfg) (n a v : Z) (t : fence * fence) : fn Z :=
  let '(acquire, release) := t in
  mkfn [ Fence release;
         Ld n XZ plain Out Dst 0;
         Lab 2;
           mov Tmp Out;
           mov Out Val;
           sp_cas_i n Dst Tmp Out;
           cmpz (8 * n) Out Tmp;
           bne_z (B 2);
         Fence acquire ]
       (fun f => f Dst = a /\ opnd (sp_pw c) (8 * n) v (f Val))
       (fun f => Some (low (8 * n) (f Out))) [Out; Tmp; FZ].
(* sparc.rs:330-373 atomic_compare_exchange *)
Definition sp_cas_fn (c : sp_cfg) (n a old new : Z) (t : fence * fence) : fn (Z * bool) :=
  let '(acquire, release) := t in
  mkfnl ([ Fence release;
          sp_cas_i n Dst Old Out;
          cmpz (8 * n) Out Old;
          li R 0 ] ++
        sp_move c 1 R ++
        [ Fence acquire ])
       (fun f => f Dst = a /\ opnd (sp_pw c) (8 * n) old (f Old) /\ opnd (sp_pw c) (8 * n) new (f Out))
       (fun f => ret_cas n (f Out) (f R)) [Out; R; FZ] [R].
(* sparc.rs:381-426 atomic_swap (sub-word) *)
Definition sp_swap_sub_fn (c : sp_cfg) (n a v : Z) (t : fence * fence) : fn Z :=
  let '(acquire, release) := t in
  let '(dst, shift, mask) := create_sub_word_mask_values (sp_arch c) BE (sp_w c) (sp_w c) n a in
  mkfn [ sp_sll c Mask Mask Shift;
         sp_sll c Val Val Shift;
         Fence release;
         Ld 4 XZ plain Out Dst 0;
         Lab 2;
           mov Tmp Out;
           andn_ Out Out Mask;
           or_ Out Out Val;
           sp_cas_i 4 Dst Tmp Out;
           cmpz 32 Out Tmp;
           bne_z (B 2);
         sp_srl Out Out Shift;
         Fence acquire ]
       (fun f => f Dst = dst /\ f Shift = shift /\ f Mask = mask /\ opnd (sp_pw c) 32 v (f Val))
       (fun f => Some (low (8 * n) (f Out))) [Val; Out; Mask; Tmp; FZ].
(* sparc.rs:427-484 atomic_compare_exchange (sub-word) *)
Definition sp_cas_sub_fn (c : sp_cfg) (n a old new : Z) (t : fence * fence) : fn (Z * bool) :=
  let '(acquire, release) := t in
  let '(dst, shift, mask) := create_sub_word_mask_values (sp_arch c) BE (sp_w c) (sp_w c) n a in
  mkfn ([ sp_sll c Mask Mask Shift;
          sp_sll c Old Old Shift;
          sp_sll c New New Shift;
          Fence release;
          Ld 4 XZ plain Out Dst 0;
          Lab 2;
            and_ Tmp Out Mask;
            cmpz 32 Old Tmp;
            bne_z (F 3);
            mov Tmp Out;
            andn_ Out Out Mask;
            or_ Out Out New;
            sp_cas_i 4 Dst Tmp Out;
            cmpz 32 Out Tmp;
            bne_z (B 2);
          Lab 3;
          li Tmp 0 ] ++
        sp_move c 1 Tmp ++
        [ sp_srl Out Out Shift;
          Fence acquire ])
       (fun f => f Dst = dst /\ f Shift = shift /\ f Mask = mask /\ opnd (sp_pw c) 32 old (f Old) /\ opnd (sp_pw c) 32 new (f New))
       (fun f => ret_cas n (f Out) (f Tmp)) [Old; New; Out; Mask; Tmp; FZ].

(* ---- which implementation a type gets: sparc.rs:488-507 (no weak compare_exchange: default = strong) ---- *)
Definition sp_word (c : sp_cfg) (n : Z) : bool := (n =? 4) || ((n =? 8) && (sp_w c =? 64)).
Definition sp_subword (n : Z) : bool := (n =? 1) || (n =? 2).
Definition sp_load (c : sp_cfg) (n : Z) (o : ordering) (a : Z) : impl (fn Z) :=
  if sp_word c n || sp_subword n then with_table (sp_load_tbl c o) (sp_load_fn n a) else NoImpl.
Definition sp_store (c : sp_cfg) (n : Z) (o : ordering) (a v : Z) : impl (fn unit) :=
  if sp_word c n || sp_subword n then with_table (sp_store_tbl c o) (sp_store_fn c n a v) else NoImpl.
Definition sp_swap (c : sp_cfg) (n : Z) (o : ordering) (a v : Z) : impl (fn Z) :=
  if sp_word c n then with_table (sp_rmw_tbl c o) (sp_swap_fn c n a v)
  else if sp_subword n then with_table (sp_rmw_tbl c o) (sp_swap_sub_fn c n a v) else NoImpl.
Definition sp_cas (c : sp_cfg) (n : Z) (success failure : ordering) (a old new : Z) : impl (fn (Z * bool)) :=
  let order := upgrade_success_ordering success failure in
  if sp_word c n then with_table (sp_rmw_tbl c order) (sp_cas_fn c n a old new)
  else if sp_subword n then with_table (sp_rmw_tbl c order) (sp_cas_sub_fn c n a old new) else NoImpl.
