(* src/arch/loongarch.rs (loongarch64, little-endian) *)
From Verif Require Export ArchCommon.

(* [la_uw] = target_pointer_width (64 on every rustc target; 32 is accepted by ptr_reg!) *)
Record la_cfg := { la_uw : Z }.
Definition la_wf (c : la_cfg) : Prop := la_uw c = 64 \/ la_uw c = 32.

(* ISA: ld.{b,h,w,d} and ll.{w,d} sign-extend to 64 bits *)
Definition la_ld (sz : Z) (r a : reg) := Ld sz (XSg 64) plain r a 0.
Definition la_st (sz : Z) (r a : reg) := St sz plain r a 0.
Definition la_ll (sz : Z) (r a : reg) := LL sz (XSg 64) acqrel r a.
(* ISA: sc.{w,d} rd, rj, 0: rd = 1 on success, 0 on failure; "LL/SC is always SeqCst" (loongarch.rs:156, 298) *)
Definition la_sc (sz : Z) (r a : reg) := SC sz acqrel r 1 (fun _ => 0) r a.
(* ISA: amswap_db.{w,d} rd, rk, rj: "AMO is always SeqCst" (loongarch.rs:109) *)
Definition la_amswap (sz : Z) (r v a : reg) :=
  Rmw sz acqrel a (fun _ _ f => Some (f v)) (fun _ _ old _ => [(r, sext (8 * sz) 64 old)]).
(* amswap_db $zero, val, dst: result discarded *)
Definition la_amswap0 (sz : Z) (v a : reg) :=
  Rmw sz acqrel a (fun _ _ f => Some (f v)) (fun _ _ _ _ => []).

(* loongarch.rs:49-54 *)
Definition la_load_tbl (o : ordering) : option fence :=
  match o with
  | Relaxed => Some FNone | Acquire => Some (FDbar 20) | SeqCst => Some (FDbar 16) | _ => None
  end.
(* loongarch.rs:197-202 (acquire, release) fences of the sub-word store *)
Definition la_store_sub_tbl (o : ordering) : option (fence * fence) :=
  match o with
  | Relaxed => Some (FNone, FNone) | Release => Some (FNone, FDbar 18) | SeqCst => Some (FDbar 16, FDbar 16) | _ => None
  end.
(* loongarch.rs:76-97: false = plain store, true = amswap_db *)
Definition la_store_tbl (o : ordering) : option bool :=
  match o with Relaxed => Some false | Release | SeqCst => Some true | _ => None end.
(* loongarch.rs:157-163, 299-305: fence of the failure path, selected by the failure ordering *)
Definition la_fail_tbl (o : ordering) : option fence :=
  match o with
  | Relaxed => Some (FDbar 1792) | Acquire => Some (FDbar 20) | SeqCst => Some (FDbar 16) | _ => None
  end.

(* loongarch.rs:24-60 atomic_load *)
Definition la_load_fn (n a : Z) (t : fence) : fn Z :=
  mkfnl [ la_ld n Out Src; Fence t ]
       (fun f => f Src = a)
       (fun f => Some (low (8 * n) (f Out)))
       [Out] [Out].
(* loongarch.rs:66-99 atomic_store (word/doubleword) *)
Definition la_store_fn (n a v : Z) (t : bool) : fn unit :=
  mkfn [ if t then la_amswap0 n Val Dst else la_st n Val Dst ]
       (fun f => f Dst = a /\ opnd 64 (8 * n) v (f Val))
       (fun f => Some tt) [].
(* loongarch.rs:176-205 atomic_store (sub-word) *)
Definition la_store_sub_fn (n a v : Z) (t : fence * fence) : fn unit :=
  let '(acquire, release) := t in
  mkfn [ Fence release; la_st n Val Dst; Fence acquire ]
       (fun f => f Dst = a /\ opnd 64 (8 * n) v (f Val))
       (fun f => Some tt) [].
(* loongarch.rs:100-121 atomic_swap *)
Definition la_swap_fn (n a v : Z) : fn Z :=
  mkfn [ la_amswap n Out Val Dst ]
       (fun f => f Dst = a /\ opnd 64 (8 * n) v (f Val))
       (fun f => Some (low (8 * n) (f Out))) [Out].
(* loongarch.rs:122-168 atomic_compare_exchange *)
Definition la_cas_fn (n a old new : Z) (t : fence) : fn (Z * bool) :=
  mkfn [ Lab 2;
           la_ll n Out Dst;
           bne_ Out Old (F 3);
           mov Tmp New;
           la_sc n Tmp Dst;
           beqz_ Tmp (B 2);
           Jmp (F 4);
         Lab 3;
           Fence t;
           li Tmp 0;
         Lab 4 ]
       (fun f => f Dst = a /\ opnd 64 (8 * n) old (f Old) /\ opnd 64 (8 * n) new (f New))
       (fun f => ret_cas n (f Out) (f Tmp))
       [Out; Tmp].
(* loongarch.rs:206-243 atomic_swap (sub-word) *)
Definition la_swap_sub_fn (c : la_cfg) (n a v : Z) : fn Z :=
  let '(dst, shift, mask) := create_sub_word_mask_values A_loongarch64 LE (la_uw c) 64 n a in
  mkfn [ sllw 64 Mask Mask Shift;
         sllw 64 Val Val Shift;
         Lab 2;
           la_ll 4 Out Dst;
           andn_ Tmp Out Mask;
           or_ Tmp Tmp Val;
           la_sc 4 Tmp Dst;
           beqz_ Tmp (B 2);
         srlw 64 Out Out Shift ]
       (fun f => f Dst = dst /\ f Shift = shift /\ f Mask = mask /\ opnd 64 32 v (f Val))
       (fun f => Some (low (8 * n) (f Out)))
       [Val; Out; Mask; Tmp].
(* loongarch.rs:244-311 atomic_compare_exchange (sub-word) *)
Definition la_cas_sub_fn (c : la_cfg) (n a old new : Z) (t : fence) : fn (Z * bool) :=
  let '(dst, shift, mask) := create_sub_word_mask_values A_loongarch64 LE (la_uw c) 64 n a in
  mkfn [ sllw 64 Mask Mask Shift;
         sllw 64 Old Old Shift;
         sllw 64 New New Shift;
         Lab 2;
           la_ll 4 Out Dst;
           and_ Tmp Out Mask;
           bne_ Tmp Old (F 3);
           andn_ Tmp Out Mask;
           or_ Tmp Tmp New;
           la_sc 4 Tmp Dst;
           beqz_ Tmp (B 2);
           Jmp (F 4);
         Lab 3;
           Fence t;
           li Tmp 0;
         Lab 4;
         srlw 64 Out Out Shift ]
       (fun f => f Dst = dst /\ f Shift = shift /\ f Mask = mask /\
                 opnd 64 32 old (f Old) /\ opnd 64 32 new (f New))
       (fun f => ret_cas n (f Out) (f Tmp))
       [Old; New; Out; Mask; Tmp].

(* ---- which implementation a type gets: loongarch.rs:314-330 ---- *)
Definition la_word (n : Z) : bool := (n =? 4) || (n =? 8).
Definition la_subword (n : Z) : bool := (n =? 1) || (n =? 2).

Definition la_load (c : la_cfg) (n : Z) (o : ordering) (a : Z) : impl (fn Z) :=
  if la_word n || la_subword n then with_table (la_load_tbl o) (la_load_fn n a) else NoImpl.
Definition la_store (c : la_cfg) (n : Z) (o : ordering) (a v : Z) : impl (fn unit) :=
  if la_word n then with_table (la_store_tbl o) (la_store_fn n a v)
  else if la_subword n then with_table (la_store_sub_tbl o) (la_store_sub_fn n a v) else NoImpl.
Definition la_swap (c : la_cfg) (n : Z) (o : ordering) (a v : Z) : impl (fn Z) :=
  if la_word n then Impl (la_swap_fn n a v)
  else if la_subword n then Impl (la_swap_sub_fn c n a v) else NoImpl.
Definition la_cas (c : la_cfg) (n : Z) (success failure : ordering) (a old new : Z) : impl (fn (Z * bool)) :=
  if la_word n then with_table (la_fail_tbl failure) (la_cas_fn n a old new)
  else if la_subword n then with_table (la_fail_tbl failure) (la_cas_sub_fn c n a old new) else NoImpl.
