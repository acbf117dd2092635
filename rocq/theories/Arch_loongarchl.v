(* src/arch_legacy/loongarch.rs *)
From Verif Require Export Legacy Arch_loongarch.

(* arch_legacy/loongarch.rs:51-56, 79-105, 193-199 and 364-370, 239-244: same tables as in src/arch ([la_load_tbl], [la_store_tbl],
   [la_fail_tbl], [la_store_sub_tbl]) *)
(* ISA: addi.w rd, rj, 0: sign-extend the low word; sltui rd, rj, 1: rd = (rj = 0) *)
Definition addiw0 (r a : reg) := Op r (op1 (sext 32 64)) [a].
Definition sltui1 (r a : reg) := Op r (op1 (fun x => b2z (x =? 0))) [a].

(* arch_legacy/loongarch.rs:24-60 atomic_load *)
Definition lal_load_fn (b : bufs) (n a : Z) (t : fence) : fn Z :=
  mkfnl [ la_ld n Tmp Src; Fence t; pst (b_out b) n OutB Tmp OutP ]
       (fun f => f Src = a /\ f OutP = b_out b)
       (fun f => Some (f OutB))
       [Tmp; OutP; OutB] [Tmp].
(* arch_legacy/loongarch.rs:67-108 atomic_store (word/doubleword) *)
Definition lal_store_fn (b : bufs) (n a v : Z) (t : bool) : fn unit :=
  mkfnl [ pld (b_val b) (sext (8 * n) 64 v) Tmp Val; if t then la_amswap0 n Tmp Dst else la_st n Tmp Dst ]
       (fun f => f Dst = a /\ f Val = b_val b)
       (fun f => Some tt) [Tmp; Dst] [Tmp].
(* arch_legacy/loongarch.rs:211-247 atomic_store (sub-word) *)
Definition lal_store_sub_fn (b : bufs) (n a v : Z) (t : fence * fence) : fn unit :=
  let '(acquire, release) := t in
  mkfnl [ pld (b_val b) (sext (8 * n) 64 v) Tmp Val; Fence release; la_st n Tmp Dst; Fence acquire ]
       (fun f => f Dst = a /\ f Val = b_val b)
       (fun f => Some tt) [Tmp; Dst] [Tmp].
(* arch_legacy/loongarch.rs:109-142 atomic_swap *)
Definition lal_swap_fn (b : bufs) (n a v : Z) : fn Z :=
  mkfn [ pld (b_val b) (sext (8 * n) 64 v) Val Val; la_amswap n Tmp Val Dst; pst (b_out b) n OutB Tmp OutP ]
       (fun f => f Dst = a /\ f Val = b_val b /\ f OutP = b_out b)
       (fun f => Some (f OutB)) [Val; OutP; Tmp; OutB].
(* arch_legacy/loongarch.rs:143-204 atomic_compare_exchange *)
Definition lal_cas_fn (b : bufs) (n a old new : Z) (t : fence) : fn (Z * bool) :=
  mkfn [ pld (b_old b) (sext (8 * n) 64 old) Old Old;
         pld (b_new b) (sext (8 * n) 64 new) New New;
         Lab 2;
           la_ll n Tmp Dst;
           bne_ Tmp Old (F 3);
           mov R New;
           la_sc n R Dst;
           beqz_ R (B 2);
           Jmp (F 4);
         Lab 3;
           Fence t;
         Lab 4;
         pst (b_out b) n OutB Tmp OutP;
         xor_ R Tmp Old;
         sltui1 R R ]
       (fun f => f Dst = a /\ f Old = b_old b /\ f New = b_new b /\ f OutP = b_out b)
       (fun f => ret_cas_l (f OutB) (f R))
       [Old; New; Tmp; R; OutB].
(* arch_legacy/loongarch.rs:248-295 atomic_swap (sub-word); tmp1 = [Tmp], tmp2 = [Tmp2] *)
Definition lal_swap_sub_fn (c : la_cfg) (b : bufs) (n a v : Z) : fn Z :=
  let '(dst, shift, mask) := create_sub_word_mask_values A_loongarch64 LE (la_uw c) 64 n a in
  mkfn [ sllw 64 Mask Mask Shift;
         addiw0 Mask Mask;
         pld (b_val b) v Val Val;
         sllw 64 Val Val Shift;
         addiw0 Val Val;
         Lab 2;
           la_ll 4 Tmp Dst;
           addiw0 Tmp2 Val;
           xor_ Tmp2 Tmp Tmp2;
           and_ Tmp2 Tmp2 Mask;
           xor_ Tmp2 Tmp Tmp2;
           la_sc 4 Tmp2 Dst;
           beqz_ Tmp2 (B 2);
         srlw 64 Tmp Tmp Shift;
         pst (b_out b) n OutB Tmp OutP ]
       (fun f => f Dst = dst /\ f Shift = shift /\ f Mask = mask /\ f Val = b_val b /\ f OutP = b_out b)
       (fun f => Some (f OutB))
       [Val; Mask; Tmp; Tmp2; OutB].
(* arch_legacy/loongarch.rs:296-375 atomic_compare_exchange (sub-word); $a6 = [AR6], $a7 = [AR7], $t0 = [AR0], $t1 = [AR1] *)
Definition lal_cas_sub_fn (c : la_cfg) (b : bufs) (n a old new : Z) (t : fence) : fn (Z * bool) :=
  let '(dst, shift, mask) := create_sub_word_mask_values A_loongarch64 LE (la_uw c) 64 n a in
  mkfnl [ pld (b_new b) new New New;
         pld (b_old b) old Old Old;
         sllw 64 New New Shift;
         addiw0 New New;
         sllw 64 Old Old Shift;
         addiw0 AR7 Old;
         sllw 64 Mask Mask Shift;
         addiw0 AR6 Mask;
         Lab 2;
           la_ll 4 AR0 Dst;
           and_ AR1 AR0 AR6;
           bne_ AR1 AR7 (F 3);
           andn_ AR1 AR0 AR6;
           or_ AR1 AR1 New;
           la_sc 4 AR1 Dst;
           beqz_ AR1 (B 2);
           Jmp (F 4);
         Lab 3;
           Fence t;
         Lab 4;
         srlw 64 AR6 AR0 Shift;
         pst (b_out b) n OutB AR6 OutP;
         and_ R AR0 Mask;
         addiw0 R R;
         xor_ R Old R;
         sltui1 R R ]
       (fun f => f Dst = dst /\ f Shift = shift /\ f Mask = mask /\ f Old = b_old b /\ f New = b_new b /\ f OutP = b_out b)
       (fun f => ret_cas_l (f OutB) (f R))
       [Old; New; OutP; Mask; R; AR6; AR7; AR0; AR1; OutB] [R].

(* ---- which implementation a type gets: arch_legacy/loongarch.rs:379-396 ---- *)
Definition lal_load (c : la_cfg) (b : bufs) (n : Z) (o : ordering) (a : Z) : impl (fn Z) :=
  if la_word n || la_subword n then with_table (la_load_tbl o) (lal_load_fn b n a) else NoImpl.
Definition lal_store (c : la_cfg) (b : bufs) (n : Z) (o : ordering) (a v : Z) : impl (fn unit) :=
  if la_word n then with_table (la_store_tbl o) (lal_store_fn b n a v)
  else if la_subword n then with_table (la_store_sub_tbl o) (lal_store_sub_fn b n a v) else NoImpl.
Definition lal_swap (c : la_cfg) (b : bufs) (n : Z) (o : ordering) (a v : Z) : impl (fn Z) :=
  if la_word n then Impl (lal_swap_fn b n a v)
  else if la_subword n then Impl (lal_swap_sub_fn c b n a v) else NoImpl.
Definition lal_cas (c : la_cfg) (b : bufs) (n : Z) (success failure : ordering) (a old new : Z) : impl (fn (Z * bool)) :=
  if la_word n then with_table (la_fail_tbl failure) (lal_cas_fn b n a old new)
  else if la_subword n then with_table (la_fail_tbl failure) (lal_cas_sub_fn c b n a old new) else NoImpl.
