(* src/arch_legacy/arm.rs (Armv6, Armv7); operands as in Arch_armv8l.v *)
From Verif Require Export Arch_armv8l.

(* dmb! (42-86), asm_use_dmb! (116-172): see [dmb]; clrex! (88-107): see [ar_clrex]; order tables: 203-208, 657-662 = [ar_load_tbl];
   241-246, 710-715 = [ar_store_tbl]; 296-306, 767-773 = [ar_swap_tbl]; 449-464, 948-959 = [ar_cas_tbl]; 590-601, 1115-1126 = [ar_casw_tbl] *)
(* 176-212 atomic_load *)
Definition arl_load_fn (b : bufs) (n a : Z) (t : fence) : fn Z :=
  mkfnl [ Ld n XZ plain Out Src 0; Fence t; pst (b_out b) n OutB Out OutP ] (fun f => f Src = a /\ f OutP = b_out b) (fun f => Some (f OutB)) [Out; OutP; OutB] [Out].
(* 213-249 atomic_store *)
Definition arl_store_fn (b : bufs) (n a v : Z) (t : fence * fence) : fn unit :=
  mkfnl [ pld (b_val b) v Val AR1; Fence (snd t); St n plain Val Dst 0; Fence (fst t) ]
       (fun f => f Dst = a /\ f AR1 = b_val b) (fun f => Some tt) [Dst; Val] [Val].
(* 254-309 atomic_swap *)
Definition arl_swap_fn (b : bufs) (n a v : Z) (t : fence * fence) : fn Z :=
  mkfn [ pld (b_val b) v Val Val;
         Fence (snd t);
         Lab 2;
           LL n XZ plain Out Dst;
           ar_strex n R Val Dst;
           cmp0 R;
           bne_z (B 2);
         Fence (fst t);
         pst (b_out b) n OutB Out OutP ]
       (fun f => f Dst = a /\ f Val = b_val b /\ f OutP = b_out b) (fun f => Some (f OutB)) [Val; Out; R; OutB; FZ; FC].
(* 316-469 atomic_compare_exchange *)
Definition arl_cas_fn (c : ar_cfg) (b : bufs) (n a old new : Z) (t : ar_cas_shape) : fn (Z * bool) :=
  mkfn (match t with
        | CRlx fs ff =>
          [ pld (b_old b) old Old Old;
            pld (b_new b) new New New;
            Lab 2;
            LL n XZ plain Out Dst;
            cmpz 32 Out Old;
            bne_z (F 3);
            ar_strex n R New Dst;
            cmp0 R;
            bne_z (B 2);
            Fence fs;
            Jmp (F 4);
            Lab 3;
            li R 1;
            ar_clrex c;
            Fence ff;
            Lab 4;
            pst (b_out b) n OutB Out OutP ]
        | CRel ff =>
          [ pld (b_old b) old Old Old;
            pld (b_new b) new New New;
            LL n XZ plain Out Dst;
            cmpz 32 Out Old;
            bne_z (F 3);
            Fence dmb;
            Lab 2;
            ar_strex n R New Dst;
            cmp0 R;
            beq_z (F 4);
            LL n XZ plain Out Dst;
            cmpz 32 Out Old;
            beq_z (B 2);
            Lab 3;
            li R 1;
            ar_clrex c;
            Fence ff;
            Lab 4;
            pst (b_out b) n OutB Out OutP ]
        | CAcqRel ff =>
          [ pld (b_old b) old Old Old;
            pld (b_new b) new New New;
            LL n XZ plain Out Dst;
            cmpz 32 Out Old;
            bne_z (F 3);
            Fence dmb;
            Lab 2;
            ar_strex n R New Dst;
            cmp0 R;
            beq_z (F 4);
            LL n XZ plain Out Dst;
            cmpz 32 Out Old;
            beq_z (B 2);
            Lab 3;
            li R 1;
            ar_clrex c;
            Fence ff;
            Jmp (F 5);
            Lab 4;
            Fence dmb;
            Lab 5;
            pst (b_out b) n OutB Out OutP ]
        end)
       (fun f => f Dst = a /\ f Old = b_old b /\ f New = b_new b /\ f OutP = b_out b)
       (fun f => ar_ret (f OutB) (f R)) [Old; New; Out; R; OutB; FZ; FC].
(* 470-607 atomic_compare_exchange_weak *)
Definition arl_casw_fn (c : ar_cfg) (b : bufs) (n a old new : Z) (t : ar_casw_shape) : fn (Z * bool) :=
  mkfn (match t with
        | W fa fr =>
          [ pld (b_old b) old Old Old;
            pld (b_new b) new New New;
            LL n XZ plain Out Dst;
            cmpz 32 Out Old;
            bne_z (F 3);
            Fence fr;
            ar_strex n R New Dst;
            Jmp (F 4);
            Lab 3;
            li R 1;
            ar_clrex c;
            Lab 4;
            Fence fa;
            pst (b_out b) n OutB Out OutP ]
        | WFailRlx fr =>
          [ pld (b_old b) old Old Old;
            pld (b_new b) new New New;
            LL n XZ plain Out Dst;
            cmpz 32 Out Old;
            bne_z (F 3);
            Fence fr;
            ar_strex n R New Dst;
            cmp0 R;
            beq_z (F 4);
            Jmp (F 5);
            Lab 3;
            li R 1;
            ar_clrex c;
            Jmp (F 5);
            Lab 4;
            Fence dmb;
            Lab 5;
            pst (b_out b) n OutB Out OutP ]
        | WSuccRlx fr =>
          [ pld (b_old b) old Old Old;
            pld (b_new b) new New New;
            LL n XZ plain Out Dst;
            cmpz 32 Out Old;
            bne_z (F 3);
            Fence fr;
            ar_strex n R New Dst;
            cmp0 R;
            beq_z (F 5);
            Jmp (F 4);
            Lab 3;
            li R 1;
            ar_clrex c;
            Lab 4;
            Fence dmb;
            Lab 5;
            pst (b_out b) n OutB Out OutP ]
        end)
       (fun f => f Dst = a /\ f Old = b_old b /\ f New = b_new b /\ f OutP = b_out b)
       (fun f => ar_ret (f OutB) (f R)) [Old; New; Out; R; OutB; FZ; FC].

(* ---- 64-bit (620-1137, not for M-class) ---- *)
(* 626-666 atomic_load; r2/r3 = [Out]/[OutHi] *)
Definition arl_load64_fn (c : ar_cfg) (b : bufs) (a : Z) (t : fence) : fn Z :=
  mkfn [ ar_ldrexd Out OutHi Src; ar_clrex c; Fence t; pstp (b_out b) 4 Out OutHi OutP ] (fun f => f Src = a /\ f OutP = b_out b)
       (fun f => Some (arl_out (ar_e c) f)) [Out; OutHi; OutB; OutBHi].
(* 667-718 atomic_store; r2/r3 = [Val]/[ValHi], r4/r5 = [Tmp]/[TmpHi] *)
Definition arl_store64_fn (c : ar_cfg) (b : bufs) (a v : Z) (t : fence * fence) : fn unit :=
  mkfnl [ arl_pldp (ar_e c) (b_val b) v Val ValHi AR1;
         Fence (snd t);
         Lab 2;
           ar_ldrexd Tmp TmpHi Dst;
           ar_strexd R Val ValHi Dst;
           cmp0 R;
           bne_z (B 2);
         Fence (fst t) ]
       (fun f => f Dst = a /\ f AR1 = b_val b) (fun f => Some tt) [Dst; Val; ValHi; Tmp; TmpHi; R; FZ; FC] [R].
(* 719-778 atomic_swap; r4/r5 = [Out]/[OutHi] *)
Definition arl_swap64_fn (c : ar_cfg) (b : bufs) (a v : Z) (t : fence * fence) : fn Z :=
  mkfnl [ arl_pldp (ar_e c) (b_val b) v Val ValHi AR1;
         Fence (snd t);
         Lab 2;
           ar_ldrexd Out OutHi Dst;
           ar_strexd R Val ValHi Dst;
           cmp0 R;
           bne_z (B 2);
         Fence (fst t);
         pstp (b_out b) 4 Out OutHi OutP ]
       (fun f => f Dst = a /\ f AR1 = b_val b /\ f OutP = b_out b)
       (fun f => Some (arl_out (ar_e c) f)) [Dst; OutP; Val; ValHi; Out; OutHi; R; OutB; OutBHi; FZ; FC] [R].
(* 781-964 atomic_compare_exchange; r2/r3 = [Old]/[OldHi], r8/r9 = [New]/[NewHi], r4/r5 = [Out]/[OutHi] *)
Definition arl_cas64_fn (c : ar_cfg) (b : bufs) (a old new : Z) (t : ar_cas_shape) : fn (Z * bool) :=
  mkfnl (match t with
        | CRlx fs ff =>
          [ arl_pldp (ar_e c) (b_old b) old Old OldHi AR2;
            arl_pldp (ar_e c) (b_new b) new New NewHi AR3;
            Lab 2;
            ar_ldrexd Out OutHi Dst;
            xor_ Tmp OutHi OldHi;
            xor_ R Out Old;
            orrs R R Tmp;
            bne_z (F 3);
            ar_strexd R New NewHi Dst;
            cmp0 R;
            bne_z (B 2);
            Fence fs;
            Jmp (F 4);
            Lab 3;
            li R 1;
            ar_clrex c;
            Fence ff;
            Lab 4;
            pstp (b_out b) 4 Out OutHi OutP ]
        | CRel ff =>
          [ arl_pldp (ar_e c) (b_old b) old Old OldHi AR2;
            arl_pldp (ar_e c) (b_new b) new New NewHi AR3;
            ar_ldrexd Out OutHi Dst;
            xor_ Tmp OutHi OldHi;
            xor_ R Out Old;
            orrs R R Tmp;
            bne_z (F 3);
            Fence dmb;
            Lab 2;
            ar_strexd R New NewHi Dst;
            cmp0 R;
            beq_z (F 4);
            ar_ldrexd Out OutHi Dst;
            xor_ Tmp OutHi OldHi;
            xor_ R Out Old;
            orrs R R Tmp;
            beq_z (B 2);
            Lab 3;
            li R 1;
            ar_clrex c;
            Fence ff;
            Lab 4;
            pstp (b_out b) 4 Out OutHi OutP ]
        | CAcqRel ff =>
          [ arl_pldp (ar_e c) (b_old b) old Old OldHi AR2;
            arl_pldp (ar_e c) (b_new b) new New NewHi AR3;
            ar_ldrexd Out OutHi Dst;
            xor_ Tmp OutHi OldHi;
            xor_ R Out Old;
            orrs R R Tmp;
            bne_z (F 3);
            Fence dmb;
            Lab 2;
            ar_strexd R New NewHi Dst;
            cmp0 R;
            beq_z (F 4);
            ar_ldrexd Out OutHi Dst;
            xor_ Tmp OutHi OldHi;
            xor_ R Out Old;
            orrs R R Tmp;
            beq_z (B 2);
            Lab 3;
            li R 1;
            ar_clrex c;
            Fence ff;
            Jmp (F 5);
            Lab 4;
            Fence dmb;
            Lab 5;
            pstp (b_out b) 4 Out OutHi OutP ]
        end)
       (fun f => f Dst = a /\ f AR2 = b_old b /\ f AR3 = b_new b /\ f OutP = b_out b)
       (fun f => ar_ret (arl_out (ar_e c) f) (f R)) [Dst; OutP; R; Tmp; Old; OldHi; Out; OutHi; New; NewHi; OutB; OutBHi; FZ; FC] [R].
(* 965-1131 atomic_compare_exchange_weak *)
Definition arl_casw64_fn (c : ar_cfg) (b : bufs) (a old new : Z) (t : ar_casw_shape) : fn (Z * bool) :=
  mkfnl (match t with
        | W fa fr =>
          [ arl_pldp (ar_e c) (b_old b) old Old OldHi AR2;
            arl_pldp (ar_e c) (b_new b) new New NewHi AR3;
            ar_ldrexd Out OutHi Dst;
            xor_ Tmp OutHi OldHi;
            xor_ R Out Old;
            orrs R R Tmp;
            bne_z (F 3);
            Fence fr;
            ar_strexd R New NewHi Dst;
            Jmp (F 4);
            Lab 3;
            li R 1;
            ar_clrex c;
            Lab 4;
            Fence fa;
            pstp (b_out b) 4 Out OutHi OutP ]
        | WFailRlx fr =>
          [ arl_pldp (ar_e c) (b_old b) old Old OldHi AR2;
            arl_pldp (ar_e c) (b_new b) new New NewHi AR3;
            ar_ldrexd Out OutHi Dst;
            xor_ Tmp OutHi OldHi;
            xor_ R Out Old;
            orrs R R Tmp;
            bne_z (F 3);
            Fence fr;
            ar_strexd R New NewHi Dst;
            cmp0 R;
            beq_z (F 4);
            Jmp (F 5);
            Lab 3;
            li R 1;
            ar_clrex c;
            Jmp (F 5);
            Lab 4;
            Fence dmb;
            Lab 5;
            pstp (b_out b) 4 Out OutHi OutP ]
        | WSuccRlx fr =>
          [ arl_pldp (ar_e c) (b_old b) old Old OldHi AR2;
            arl_pldp (ar_e c) (b_new b) new New NewHi AR3;
            ar_ldrexd Out OutHi Dst;
            xor_ Tmp OutHi OldHi;
            xor_ R Out Old;
            orrs R R Tmp;
            bne_z (F 3);
            Fence fr;
            ar_strexd R New NewHi Dst;
            cmp0 R;
            beq_z (F 5);
            Jmp (F 4);
            Lab 3;
            li R 1;
            ar_clrex c;
            Lab 4;
            Fence dmb;
            Lab 5;
            pstp (b_out b) 4 Out OutHi OutP ]
        end)
       (fun f => f Dst = a /\ f AR2 = b_old b /\ f AR3 = b_new b /\ f OutP = b_out b)
       (fun f => ar_ret (arl_out (ar_e c) f) (f R)) [Dst; OutP; R; Tmp; Old; OldHi; Out; OutHi; New; NewHi; OutB; OutBHi; FZ; FC] [R].

(* ---- which implementation a type gets: 611-618, 1136-1137; swap/compare_exchange only if v7 or not M-class (250-253, 311-314),
   64-bit only if not M-class ---- *)
Definition arl_load (c : ar_cfg) (b : bufs) (n : Z) (o : ordering) (a : Z) : impl (fn Z) :=
  if ar_word n then with_table (ar_load_tbl o) (arl_load_fn b n a)
  else if (n =? 8) && negb (ar_mclass c) then with_table (ar_load_tbl o) (arl_load64_fn c b a) else NoImpl.
Definition arl_store (c : ar_cfg) (b : bufs) (n : Z) (o : ordering) (a v : Z) : impl (fn unit) :=
  if ar_word n then with_table (ar_store_tbl o) (arl_store_fn b n a v)
  else if (n =? 8) && negb (ar_mclass c) then with_table (ar_store_tbl o) (arl_store64_fn c b a v) else NoImpl.
Definition arl_swap (c : ar_cfg) (b : bufs) (n : Z) (o : ordering) (a v : Z) : impl (fn Z) :=
  if ar_word n then if ar_has_cas c then with_table (ar_swap_tbl o) (arl_swap_fn b n a v) else NoImpl
  else if (n =? 8) && negb (ar_mclass c) then with_table (ar_swap_tbl o) (arl_swap64_fn c b a v) else NoImpl.
Definition arl_cas (c : ar_cfg) (b : bufs) (n : Z) (success failure : ordering) (a old new : Z) : impl (fn (Z * bool)) :=
  if ar_word n then if ar_has_cas c then with_table (ar_cas_tbl success failure) (arl_cas_fn c b n a old new) else NoImpl
  else if (n =? 8) && negb (ar_mclass c) then with_table (ar_cas_tbl success failure) (arl_cas64_fn c b a old new) else NoImpl.
Definition arl_casw (c : ar_cfg) (b : bufs) (n : Z) (success failure : ordering) (a old new : Z) : impl (fn (Z * bool)) :=
  if ar_word n then if ar_has_cas c then with_table (ar_casw_tbl success failure) (arl_casw_fn c b n a old new) else NoImpl
  else if (n =? 8) && negb (ar_mclass c) then with_table (ar_casw_tbl success failure) (arl_casw64_fn c b a old new) else NoImpl.
