(* src/arch/mips.rs (mips, mips32r6, mips64, mips64r6; both endiannesses) *)
From Verif Require Export ArchCommon.

(* [mi_w] = register width; [mi_uw] = target_pointer_width (32 on mips64 = n32 ABI, see ptr_reg!);
   [mi_r6] = the r6 target_arch; [mi_e] = target_endian *)
Record mi_cfg := { mi_w : Z; mi_uw : Z; mi_r6 : bool; mi_e : endian }.
Definition mi_wf (c : mi_cfg) : Prop :=
  (mi_w c = 32 /\ mi_uw c = 32) \/ (mi_w c = 64 /\ (mi_uw c = 64 \/ mi_uw c = 32)).
Definition mi_arch (c : mi_cfg) : tarch :=
  if mi_w c =? 32 then (if mi_r6 c then A_mips32r6 else A_mips) else (if mi_r6 c then A_mips64r6 else A_mips64).

(* ISA: lb/lh/lw/ld, ll/lld sign-extend *)
Definition mi_l (w sz : Z) (r a : reg) := Ld sz (XSg w) plain r a 0.
Definition mi_s (sz : Z) (r a : reg) := St sz plain r a 0.
Definition mi_ll (w sz : Z) (r a : reg) := LL sz (XSg w) plain r a.
(* ISA: sc/scd rt: 1 on success, 0 on failure *)
Definition mi_sc (sz : Z) (r a : reg) := SC sz plain r 1 (fun _ => 0) r a.
(* ISA: srlv on a 64-bit processor is UNPREDICTABLE unless its operand is a sign-extended 32-bit value *)
Definition mi_srl (w : Z) (j : Z) (a b : Z) : Z := if sext 32 w a =? a then sx_srl w a b else j.
Definition srlv (w : Z) (r a b : reg) := Op r (fun j l => match l with [x; y] => mi_srl w j x y | _ => 0 end) [a; b].

(* mips.rs:24-35 atomic_rmw! (acquire, release) *)
Definition mi_rmw_tbl (o : ordering) : option (fence * fence) :=
  match o with
  | Relaxed => Some (FNone, FNone)
  | Acquire => Some (FSync, FNone)
  | Release => Some (FNone, FSync)
  | AcqRel | SeqCst => Some (FSync, FSync)
  end.
(* mips.rs:65-70 *)
Definition mi_load_tbl (o : ordering) : option fence :=
  match o with Relaxed => Some FNone | Acquire | SeqCst => Some FSync | _ => None end.

(* mips.rs:40-74 atomic_load *)
Definition mi_load_fn (c : mi_cfg) (n a : Z) (t : fence) : fn Z :=
  mkfn [ mi_l (mi_w c) n Out Src; Fence t ]
       (fun f => f Src = a) (fun f => Some (low (8 * n) (f Out))) [Out].
(* mips.rs:75-104 atomic_store *)
Definition mi_store_fn (c : mi_cfg) (n a v : Z) (t : fence * fence) : fn unit :=
  let '(acquire, release) := t in
  mkfn [ Fence release; mi_s n Val Dst; Fence acquire ]
       (fun f => f Dst = a /\ opnd (mi_w c) (8 * n) v (f Val)) (fun f => Some tt) [].
(* mips.rs:112-148 atomic_swap *)
Definition mi_swap_fn (c : mi_cfg) (n a v : Z) (t : fence * fence) : fn Z :=
  let '(acquire, release) := t in
  mkfn [ Fence release;
         Lab 2;
           mi_ll (mi_w c) n Out Dst;
           mov Tmp Val;
           mi_sc n Tmp Dst;
           beqz_ Tmp (B 2);
         Fence acquire ]
       (fun f => f Dst = a /\ opnd (mi_w c) (8 * n) v (f Val))
       (fun f => Some (low (8 * n) (f Out))) [Out; Tmp].
(* mips.rs:149-195 atomic_compare_exchange *)
Definition mi_cas_fn (c : mi_cfg) (n a old new : Z) (t : fence * fence) : fn (Z * bool) :=
  let '(acquire, release) := t in
  mkfn [ Fence release;
         Lab 2;
           mi_ll (mi_w c) n Out Dst;
           bne_ Out Old (F 3);
           mov Tmp New;
           mi_sc n Tmp Dst;
           beqz_ Tmp (B 2);
           Jmp (F 4);
         Lab 3;
           li Tmp 0;
         Lab 4;
         Fence acquire ]
       (fun f => f Dst = a /\ opnd (mi_w c) (8 * n) old (f Old) /\ opnd (mi_w c) (8 * n) new (f New))
       (fun f => ret_cas n (f Out) (f Tmp))
       [Out; Tmp].
(* mips.rs:204-248 atomic_swap (sub-word) *)
Definition mi_swap_sub_fn (c : mi_cfg) (n a v : Z) (t : fence * fence) : fn Z :=
  let '(acquire, release) := t in
  let '(dst, shift, mask) := create_sub_word_mask_values (mi_arch c) (mi_e c) (mi_uw c) (mi_w c) n a in
  let w := mi_w c in
  mkfn [ sllw w Mask Mask Shift;
         sllw w Val Val Shift;
         Fence release;
         Lab 2;
           mi_ll w 4 Out Dst;
           xor_ Tmp Out Val;
           and_ Tmp Tmp Mask;
           xor_ Tmp Tmp Out;
           mi_sc 4 Tmp Dst;
           beqz_ Tmp (B 2);
         srlv w Out Out Shift;
         Fence acquire ]
       (fun f => f Dst = dst /\ f Shift = shift /\ f Mask = mask /\ opnd w 32 v (f Val))
       (fun f => Some (low (8 * n) (f Out)))
       [Val; Out; Mask; Tmp].
(* mips.rs:249-316 atomic_compare_exchange (sub-word) *)
Definition mi_cas_sub_fn (c : mi_cfg) (n a old new : Z) (t : fence * fence) : fn (Z * bool) :=
  let '(acquire, release) := t in
  let '(dst, shift, mask) := create_sub_word_mask_values (mi_arch c) (mi_e c) (mi_uw c) (mi_w c) n a in
  let w := mi_w c in
  mkfn [ sllw w Mask Mask Shift;
         sllw w Old Old Shift;
         sllw w New New Shift;
         Fence release;
         Lab 2;
           mi_ll w 4 Out Dst;
           and_ Tmp Out Mask;
           bne_ Tmp Old (F 3);
           xor_ Tmp Out New;
           and_ Tmp Tmp Mask;
           xor_ Tmp Tmp Out;
           mi_sc 4 Tmp Dst;
           beqz_ Tmp (B 2);
           Jmp (F 4);
         Lab 3;
           li Tmp 0;
         Lab 4;
         srlv w Out Out Shift;
         Fence acquire ]
       (fun f => f Dst = dst /\ f Shift = shift /\ f Mask = mask /\
                 opnd w 32 old (f Old) /\ opnd w 32 new (f New))
       (fun f => ret_cas n (f Out) (f Tmp))
       [Old; New; Out; Mask; Tmp].

(* ---- which implementation a type gets: mips.rs:319-335 ---- *)
Definition mi_word (c : mi_cfg) (n : Z) : bool := (n =? 4) || ((n =? 8) && (mi_w c =? 64)).
Definition mi_subword (n : Z) : bool := (n =? 1) || (n =? 2).

Definition mi_load (c : mi_cfg) (n : Z) (o : ordering) (a : Z) : impl (fn Z) :=
  if mi_word c n || mi_subword n then with_table (mi_load_tbl o) (mi_load_fn c n a) else NoImpl.
Definition mi_store (c : mi_cfg) (n : Z) (o : ordering) (a v : Z) : impl (fn unit) :=
  if mi_word c n || mi_subword n then with_table (mi_rmw_tbl o) (mi_store_fn c n a v) else NoImpl.
Definition mi_swap (c : mi_cfg) (n : Z) (o : ordering) (a v : Z) : impl (fn Z) :=
  if mi_word c n then with_table (mi_rmw_tbl o) (mi_swap_fn c n a v)
  else if mi_subword n then with_table (mi_rmw_tbl o) (mi_swap_sub_fn c n a v) else NoImpl.
Definition mi_cas (c : mi_cfg) (n : Z) (success failure : ordering) (a old new : Z) : impl (fn (Z * bool)) :=
  let order := upgrade_success_ordering success failure in
  if mi_word c n then with_table (mi_rmw_tbl order) (mi_cas_fn c n a old new)
  else if mi_subword n then with_table (mi_rmw_tbl order) (mi_cas_sub_fn c n a old new) else NoImpl.
