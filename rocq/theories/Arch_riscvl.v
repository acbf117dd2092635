(* src/arch_legacy/riscv.rs *)
From Verif Require Export Legacy Arch_riscv.

(* arch_legacy/riscv.rs:105-111, 144-150: same tables as in src/arch ([rv_load_tbl], [rv_store_tbl]); 50-61 atomic_rmw_amo! = [rv_amo_tbl];
   63-74 atomic_rmw_lr_sc! = [rv_lrsc_tbl] *)

(* arch_legacy/riscv.rs:78-115 atomic_load *)
Definition rvl_load_fn (c : rv_cfg) (b : bufs) (n a : Z) (t : fence * fence) : fn Z :=
  let '(acquire, release) := t in
  mkfnl [ Fence release; rv_l (rv_w c) n Tmp Src; Fence acquire; pst (b_out b) n OutB Tmp OutP ]
       (fun f => f Src = a /\ f OutP = b_out b)
       (fun f => Some (f OutB))
       [Tmp; OutP; OutB] [Tmp].
(* arch_legacy/riscv.rs:116-153 atomic_store *)
Definition rvl_store_fn (c : rv_cfg) (b : bufs) (n a v : Z) (t : fence * fence) : fn unit :=
  let '(acquire, release) := t in
  mkfnl [ pld (b_val b) (sext (8 * n) (rv_w c) v) Tmp Val; Fence release; rv_s n Tmp Dst; Fence acquire ]
       (fun f => f Dst = a /\ f Val = b_val b)
       (fun f => Some tt)
       [Tmp; Dst] [Tmp].
(* arch_legacy/riscv.rs:161-198 atomic_swap *)
Definition rvl_swap_fn (c : rv_cfg) (b : bufs) (n a v : Z) (t : acc) : fn Z :=
  mkfnl [ pld (b_val b) (sext (8 * n) (rv_w c) v) Val Val;
         rv_amoswap (rv_w c) n t Tmp Val Dst;
         pst (b_out b) n OutB Tmp OutP ]
       (fun f => f Dst = a /\ f Val = b_val b /\ f OutP = b_out b)
       (fun f => Some (f OutB))
       [Tmp; Val; OutP; OutB] [Tmp].
(* arch_legacy/riscv.rs:200-251 atomic_compare_exchange *)
Definition rvl_cas_fn (c : rv_cfg) (b : bufs) (n a old new : Z) (t : acc * acc) : fn (Z * bool) :=
  let '(acquire, release) := t in
  let w := rv_w c in
  mkfn [ pld (b_old b) (sext (8 * n) w old) Old Old;
         pld (b_new b) (sext (8 * n) w new) New New;
         Lab 2;
           rv_lr w n acquire Tmp Dst;
           bne_ Tmp Old (F 3);
           rv_sc n release R New Dst;
           bnez_ R (B 2);
         Lab 3;
         xor_ R Tmp Old;
         seqz R R;
         pst (b_out b) n OutB Tmp OutP ]
       (fun f => f Dst = a /\ f Old = b_old b /\ f New = b_new b /\ f OutP = b_out b)
       (fun f => ret_cas_l (f OutB) (f R))
       [Old; New; Tmp; R; OutB].
(* arch_legacy/riscv.rs:260-310 sub-word atomic_swap; l{b,h}u zero-extends *)
Definition rvl_swap_sub_fn (c : rv_cfg) (b : bufs) (n a v : Z) (t : acc * acc) : fn Z :=
  let '(acquire, release) := t in
  let '(dst, shift, mask) := create_sub_word_mask_values (rv_arch c) LE (rv_uw c) (rv_w c) n a in
  let w := rv_w c in
  mkfn [ pld (b_val b) v Val Val;
         sllw w Mask Mask Shift;
         sllw w Val Val Shift;
         Lab 2;
           rv_lr w 4 acquire Tmp Dst;
           mov Tmp2 Val;
           xor_ Tmp2 Tmp2 Tmp;
           and_ Tmp2 Tmp2 Mask;
           xor_ Tmp2 Tmp2 Tmp;
           rv_sc 4 release Tmp2 Tmp2 Dst;
           bnez_ Tmp2 (B 2);
         srlw w Tmp Tmp Shift;
         pst (b_out b) n OutB Tmp OutP ]
       (fun f => f Dst = dst /\ f Shift = shift /\ f Mask = mask /\ f Val = b_val b /\ f OutP = b_out b)
       (fun f => Some (f OutB))
       [Val; Mask; Tmp; Tmp2; OutB].
(* arch_legacy/riscv.rs:312-377 sub-word atomic_compare_exchange *)
Definition rvl_cas_sub_fn (c : rv_cfg) (b : bufs) (n a old new : Z) (t : acc * acc) : fn (Z * bool) :=
  let '(acquire, release) := t in
  let '(dst, shift, mask) := create_sub_word_mask_values (rv_arch c) LE (rv_uw c) (rv_w c) n a in
  let w := rv_w c in
  mkfnl [ pld (b_old b) old Old Old;
         pld (b_new b) new New New;
         sllw w Mask Mask Shift;
         sllw w Old Old Shift;
         sllw w New New Shift;
         Lab 2;
           rv_lr w 4 acquire Tmp Dst;
           and_ Tmp2 Tmp Mask;
           bne_ Tmp2 Old (F 3);
           xor_ Tmp2 Tmp New;
           and_ Tmp2 Tmp2 Mask;
           xor_ Tmp2 Tmp2 Tmp;
           rv_sc 4 release Tmp2 Tmp2 Dst;
           bnez_ Tmp2 (B 2);
         Lab 3;
         srlw w Tmp2 Tmp Shift;
         and_ Tmp Tmp Mask;
         xor_ R Old Tmp;
         seqz R R;
         pst (b_out b) n OutB Tmp2 OutP ]
       (fun f => f Dst = dst /\ f Shift = shift /\ f Mask = mask /\ f Old = b_old b /\ f New = b_new b /\ f OutP = b_out b)
       (fun f => ret_cas_l (f OutB) (f R))
       [Old; New; OutP; Mask; R; Tmp; Tmp2; OutB] [R].

(* ---- which implementation a type gets: arch_legacy/riscv.rs:381-398; the a feature: 160, 199, 259, 311 ---- *)
Definition rvl_load (c : rv_cfg) (b : bufs) (n : Z) (o : ordering) (a : Z) : impl (fn Z) :=
  if rv_word c n || rv_subword n then with_table (rv_load_tbl o) (rvl_load_fn c b n a) else NoImpl.
Definition rvl_store (c : rv_cfg) (b : bufs) (n : Z) (o : ordering) (a v : Z) : impl (fn unit) :=
  if rv_word c n || rv_subword n then with_table (rv_store_tbl o) (rvl_store_fn c b n a v) else NoImpl.
Definition rvl_swap (c : rv_cfg) (b : bufs) (n : Z) (o : ordering) (a v : Z) : impl (fn Z) :=
  if rv_a c then
    if rv_word c n then with_table (rv_amo_tbl o) (rvl_swap_fn c b n a v)
    else if rv_subword n then with_table (rv_lrsc_tbl o) (rvl_swap_sub_fn c b n a v) else NoImpl
  else NoImpl.
Definition rvl_cas (c : rv_cfg) (b : bufs) (n : Z) (success failure : ordering) (a old new : Z) : impl (fn (Z * bool)) :=
  let order := upgrade_success_ordering success failure in
  if rv_a c then
    if rv_word c n then with_table (rv_lrsc_tbl order) (rvl_cas_fn c b n a old new)
    else if rv_subword n then with_table (rv_lrsc_tbl order) (rvl_cas_sub_fn c b n a old new)
    else NoImpl
  else NoImpl.
