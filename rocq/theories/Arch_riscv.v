(* src/arch/riscv.rs (riscv32 and riscv64; all rustc RISC-V targets are little-endian) *)
From Verif Require Export ArchCommon.

(* Target configuration.  [rv_w] = XLEN; [rv_uw] = target_pointer_width
   (32 on riscv64 would be the ILP32 ABI, see src/gen/utils.rs:5-30). *)
Record rv_cfg := { rv_w : Z; rv_uw : Z; rv_a : bool; rv_zaamo : bool; rv_zabha : bool }.
Definition rv_wf (c : rv_cfg) : Prop :=
  (rv_w c = 32 /\ rv_uw c = 32) \/ (rv_w c = 64 /\ (rv_uw c = 64 \/ rv_uw c = 32)).
Definition rv_arch (c : rv_cfg) : tarch := if rv_w c =? 32 then A_riscv32 else A_riscv64.

(* ISA: sllw/srlw (sll/srl on RV32): 32-bit shift by the low 5 bits of the amount, result sign-extended
   ([sllw], [srlw] in ArchCommon.v).  w!() macro: riscv.rs:46-59 *)
(* ISA: seqz rd, rs *)
Definition seqz (r a : reg) := Op r (op1 (fun x => b2z (x =? 0))) [a].
(* ISA: loads sign-extend to XLEN; l{b,h,w,d} *)
Definition rv_l (w sz : Z) (r a : reg) := Ld sz (XSg w) plain r a 0.
Definition rv_s (sz : Z) (r a : reg) := St sz plain r a 0.
(* ISA: lr sign-extends; sc writes 0 on success, an unspecified nonzero code on failure *)
Definition rv_lr (w sz : Z) (o : acc) (r a : reg) := LL sz (XSg w) o r a.
Definition rv_sc (sz : Z) (o : acc) (rst r a : reg) := SC sz o rst 0 (fun j => 1 + Z.abs j) r a.
(* ISA: amoswap.{b,h,w,d} rd, rs2, (rs1): rd = sign-extended old value *)
Definition rv_amoswap (w sz : Z) (o : acc) (r v a : reg) :=
  Rmw sz o a (fun _ _ f => Some (f v)) (fun _ _ old _ => [(r, sext (8 * sz) w old)]).

(* riscv.rs:119-124 (acquire, release) fences of load *)
Definition rv_load_tbl (o : ordering) : option (fence * fence) :=
  match o with
  | Relaxed => Some (FNone, FNone)
  | Acquire => Some (FRv true false true true, FNone)
  | SeqCst => Some (FRv true false true true, FRv true true true true)
  | _ => None
  end.
(* riscv.rs:152-158 (acquire, release) fences of store *)
Definition rv_store_tbl (o : ordering) : option (fence * fence) :=
  match o with
  | Relaxed => Some (FNone, FNone)
  | Release => Some (FNone, FRv true true false true)
  | SeqCst => Some (FRv true true true true, FRv true true false true)
  | _ => None
  end.
(* riscv.rs:67-78 atomic_rmw_amo! *)
Definition rv_amo_tbl (o : ordering) : option acc :=
  match o with
  | Relaxed => Some plain | Acquire => Some acq | Release => Some rel | AcqRel | SeqCst => Some acqrel
  end.
(* riscv.rs:80-91 atomic_rmw_lr_sc! *)
Definition rv_lrsc_tbl (o : ordering) : option (acc * acc) :=
  match o with
  | Relaxed => Some (plain, plain)
  | Acquire => Some (acq, plain)
  | Release => Some (plain, rel)
  | AcqRel => Some (acq, rel)
  | SeqCst => Some (acqrel, rel)
  end.

(* riscv.rs:98-127 atomic_load; the result register is read back at the width of the type *)
Definition rv_load_fn (c : rv_cfg) (n a : Z) (t : fence * fence) : fn Z :=
  let '(acquire, release) := t in
  mkfnl [ Fence release; rv_l (rv_w c) n Out Src; Fence acquire ]
       (fun f => f Src = a)
       (fun f => Some (low (8 * n) (f Out)))
       [Out] [Out].

(* riscv.rs:131-160 atomic_store *)
Definition rv_store_fn (c : rv_cfg) (n a v : Z) (t : fence * fence) : fn unit :=
  let '(acquire, release) := t in
  mkfn [ Fence release; rv_s n Val Dst; Fence acquire ]
       (fun f => f Dst = a /\ opnd (rv_w c) (8 * n) v (f Val))
       (fun f => Some tt)
       [].

(* riscv.rs:176-200 atomic_swap (amoswap) *)
Definition rv_swap_amo_fn (c : rv_cfg) (n a v : Z) (t : acc) : fn Z :=
  mkfnl [ rv_amoswap (rv_w c) n t Out Val Dst ]
       (fun f => f Dst = a /\ opnd (rv_w c) (8 * n) v (f Val))
       (fun f => Some (low (8 * n) (f Out)))
       [Out] [Out].

(* riscv.rs:213-251 atomic_compare_exchange (word/doubleword) *)
Definition rv_cas_fn (c : rv_cfg) (n a old new : Z) (t : acc * acc) : fn (Z * bool) :=
  let '(acquire, release) := t in
  mkfn [ Lab 2;
           rv_lr (rv_w c) n acquire Out Dst;
           bne_ Out Old (F 3);
           rv_sc n release R New Dst;
           bnez_ R (B 2);
         Lab 3;
         xor_ R Out Old;
         seqz R R ]
       (fun f => f Dst = a /\ opnd (rv_w c) (8 * n) old (f Old) /\ opnd (rv_w c) (8 * n) new (f New))
       (fun f => ret_cas n (f Out) (f R))
       [Out; R].

(* riscv.rs:266-306 sub-word atomic_swap (LR/SC) *)
Definition rv_swap_sub_fn (c : rv_cfg) (n a v : Z) (t : acc * acc) : fn Z :=
  let '(acquire, release) := t in
  let '(dst, shift, mask) := create_sub_word_mask_values (rv_arch c) LE (rv_uw c) (rv_w c) n a in
  let w := rv_w c in
  mkfn [ sllw w Mask Mask Shift;
         sllw w Val Val Shift;
         Lab 2;
           rv_lr w 4 acquire Out Dst;
           xor_ Tmp Val Out;
           and_ Tmp Tmp Mask;
           xor_ Tmp Tmp Out;
           rv_sc 4 release Tmp Tmp Dst;
           bnez_ Tmp (B 2);
         srlw w Out Out Shift ]
       (fun f => f Dst = dst /\ f Shift = shift /\ f Mask = mask /\ opnd w 32 v (f Val))
       (fun f => Some (low (8 * n) (f Out)))
       [Val; Out; Mask; Tmp].

(* riscv.rs:311-364 sub-word atomic_compare_exchange; `tmp` is returned as `r` *)
Definition rv_cas_sub_fn (c : rv_cfg) (n a old new : Z) (t : acc * acc) : fn (Z * bool) :=
  let '(acquire, release) := t in
  let '(dst, shift, mask) := create_sub_word_mask_values (rv_arch c) LE (rv_uw c) (rv_w c) n a in
  let w := rv_w c in
  mkfn [ sllw w Mask Mask Shift;
         sllw w Old Old Shift;
         sllw w New New Shift;
         Lab 2;
           rv_lr w 4 acquire Tmp Dst;
           and_ Out Tmp Mask;
           bne_ Out Old (F 3);
           xor_ Out Tmp New;
           and_ Out Out Mask;
           xor_ Out Out Tmp;
           rv_sc 4 release Out Out Dst;
           bnez_ Out (B 2);
         Lab 3;
         srlw w Out Tmp Shift;
         and_ Tmp Tmp Mask;
         xor_ Tmp Old Tmp;
         seqz Tmp Tmp ]
       (fun f => f Dst = dst /\ f Shift = shift /\ f Mask = mask /\
                 opnd w 32 old (f Old) /\ opnd w 32 new (f New))
       (fun f => ret_cas n (f Out) (f Tmp))
       [Old; New; Out; Mask; Tmp].

(* ---- which implementation a type gets: riscv.rs:369-386 and the cfg attributes ---- *)
Definition rv_word (c : rv_cfg) (n : Z) : bool := (n =? 4) || ((n =? 8) && (rv_w c =? 64)).
Definition rv_subword (n : Z) : bool := (n =? 1) || (n =? 2).

Definition rv_load (c : rv_cfg) (n : Z) (o : ordering) (a : Z) : impl (fn Z) :=
  if rv_word c n || rv_subword n then with_table (rv_load_tbl o) (rv_load_fn c n a) else NoImpl.
Definition rv_store (c : rv_cfg) (n : Z) (o : ordering) (a v : Z) : impl (fn unit) :=
  if rv_word c n || rv_subword n then with_table (rv_store_tbl o) (rv_store_fn c n a v) else NoImpl.
(* riscv.rs:168-173 (a or zaamo), 260-263 (zabha, else a) *)
Definition rv_swap (c : rv_cfg) (n : Z) (o : ordering) (a v : Z) : impl (fn Z) :=
  if rv_word c n then
    if rv_a c || rv_zaamo c then with_table (rv_amo_tbl o) (rv_swap_amo_fn c n a v) else NoImpl
  else if rv_subword n then
    if rv_zabha c then
      if rv_a c || rv_zaamo c then with_table (rv_amo_tbl o) (rv_swap_amo_fn c n a v) else NoImpl
    else if rv_a c then with_table (rv_lrsc_tbl o) (rv_swap_sub_fn c n a v) else NoImpl
  else NoImpl.
(* riscv.rs:210, 308 *)
Definition rv_cas (c : rv_cfg) (n : Z) (success failure : ordering) (a old new : Z) : impl (fn (Z * bool)) :=
  let order := upgrade_success_ordering success failure in
  if rv_a c then
    if rv_word c n then with_table (rv_lrsc_tbl order) (rv_cas_fn c n a old new)
    else if rv_subword n then with_table (rv_lrsc_tbl order) (rv_cas_sub_fn c n a old new)
    else NoImpl
  else NoImpl.
