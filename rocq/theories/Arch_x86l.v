(* src/arch_legacy/x86.rs *)
From Verif Require Export Legacy Arch_x86.

(* The addresses of the private buffers go through ptr_modifier!() (30-41) / $rsi, $r8, $rdx (531-536) too: the low x_pw bits of the operand. *)
(* mov r, [m] on (a half of) a buffer: [x] = the [n] bytes there; upper bits unspecified *)
Definition x_pld (c : x_cfg) (p n x : Z) (r ar : reg) :=
  Op r (fun j l => match l with [q] => if low (x_pw c) q =? p then junk_hi (x_w c) (8 * n) x j else j | _ => 0 end) [ar].
(* mov [m], r on the result buffer; offset 0: [OutB], second half: [OutBHi] *)
Definition x_pst (c : x_cfg) (p n : Z) (ob r ar : reg) :=
  Op ob (fun j l => match l with [q; y] => if low (x_pw c) q =? p then low (8 * n) y else j | _ => 0 end) [ar; r].
(* ISA: movsd/movq xmm, [m]: bits 64..127 zeroed; movlps xmm, [m]: kept *)
Definition x_pmovsd (c : x_cfg) (p x : Z) (r ar : reg) :=
  Op r (fun j l => match l with [q] => if low (x_pw c) q =? p then x else j | _ => 0 end) [ar].
Definition x_pmovlps (c : x_cfg) (p x : Z) (r ar : reg) :=
  Op r (fun j l => match l with [q; y] => if low (x_pw c) q =? p then x + Z.shiftl (Z.shiftr y 64) 64 else j | _ => 0 end) [ar; r].
(* ISA: pshufd/shufps with immediate 85 and both sources equal: every dword := dword 1 *)
Definition shuf85 (v : Z) : Z := let d := low 32 (Z.shiftr v 32) in d + Z.shiftl d 32 + Z.shiftl d 64 + Z.shiftl d 96.

(* 67-93 atomic_load *)
Definition xl_load_fn (c : x_cfg) (b : bufs) (n a : Z) : fn Z :=
  mkfnl [ ea c Src; x_ld c n Tmp 0; x_pst c (b_out b) n OutB Tmp OutP ]
       (fun f => opnd (x_w c) (x_pw c) a (f Src) /\ opnd (x_w c) (x_pw c) (b_out b) (f OutP))
       (fun f => Some (f OutB)) [Tmp; OutP; OutB; AR7] [Tmp].
(* 94-136 atomic_store; order dispatch 106-133 = [x_store_tbl] *)
Definition xl_store_fn (c : x_cfg) (b : bufs) (n a v : Z) (t : x_store_shape) : fn unit :=
  mkfnl [ x_pld c (b_val b) n v Tmp Val; ea c Dst; match t with XMov => x_st n Tmp | XXchg => x_xchg c n Tmp end ]
       (fun f => opnd (x_w c) (x_pw c) a (f Dst) /\ opnd (x_w c) (x_pw c) (b_val b) (f Val))
       (fun f => Some tt) [Tmp; Dst; AR7] [Tmp].
(* 137-168 atomic_swap *)
Definition xl_swap_fn (c : x_cfg) (b : bufs) (n a v : Z) : fn Z :=
  mkfnl [ x_pld c (b_val b) n v Tmp Val; ea c Dst; x_xchg c n Tmp; x_pst c (b_out b) n OutB Tmp OutP ]
       (fun f => opnd (x_w c) (x_pw c) a (f Dst) /\ opnd (x_w c) (x_pw c) (b_val b) (f Val) /\ opnd (x_w c) (x_pw c) (b_out b) (f OutP))
       (fun f => Some (f OutB)) [Tmp; Dst; OutP; OutB; AR7] [Tmp].
(* 170-217 atomic_compare_exchange; $cmpxchg_cmp_reg = [XA], $tmp_new_reg = [XC] *)
Definition xl_cas_fn (c : x_cfg) (b : bufs) (n a old new : Z) : fn (Z * bool) :=
  mkfn [ x_pld c (b_old b) n old XA Old;
         x_pld c (b_new b) n new XC New;
         ea c Dst; x_cmpxchg_i c n;
         sete_cl;
         x_pst c (b_out b) n OutB XA OutP ]
       (fun f => opnd (x_w c) (x_pw c) a (f Dst) /\ opnd (x_w c) (x_pw c) (b_old b) (f Old) /\ opnd (x_w c) (x_pw c) (b_new b) (f New) /\
                 opnd (x_w c) (x_pw c) (b_out b) (f OutP))
       (fun f => ret_cas_l (f OutB) (low 8 (f XC))) [XC; XA; OutB; FZ; FC; AR7].

(* ---- 64-bit on 32-bit x86 (242-525); edi = [Dst]/[Src], esi = [XS] (must be preserved), esi_tmp = [Tmp] ---- *)
Definition join_out (k : Z) (f : regs) : Z := f OutB + Z.shiftl (f OutBHi) k.
(* 256-330 cfg chain *)
Definition xl_wide (c : x_cfg) : x_wide := if x_sse c then if x_sse2 c then WSse2 else WSse else WCas.
(* 246-332 atomic_load; tmp0 (tmp) = [XI], tmp1 = [Tmp] *)
Definition xl_load64_fn (c : x_cfg) (b : bufs) (a : Z) : fn Z :=
  match xl_wide c with
  | WSse2 => mkfn [ ea c Src; x_movq_ld;
                    Op Tmp (op1 shuf85) [XI];
                    x_pst c (b_out b) 4 OutB XI OutP;
                    x_pst c (b_out b) 4 OutBHi Tmp OutP ]
                  (fun f => f Src = a /\ f OutP = b_out b) (fun f => Some (join_out 32 f)) [XI; Tmp; OutB; OutBHi; AR7]
  | WSse => mkfn [ xor_ XI XI XI;
                   ea c Src; x_movlps_ld;
                   x_pst c (b_out b) 4 OutB XI OutP;
                   Op XI (op1 shuf85) [XI];
                   x_pst c (b_out b) 4 OutBHi XI OutP ]
                 (fun f => f Src = a /\ f OutP = b_out b) (fun f => Some (join_out 32 f)) [XI; OutB; OutBHi; AR7]
  | _ => mkfn [ xchg_rr Tmp XS;
                ea c Src; x_cmpxchg2 8 32;
                x_pst c (b_out b) 4 OutB XA XS;
                x_pst c (b_out b) 4 OutBHi XD XS;
                mov XS Tmp ]
              (fun f => f Src = a /\ f Tmp = b_out b /\ f XB = 0 /\ f XC = 0 /\ f XA = 0 /\ f XD = 0)
              (fun f => Some (join_out 32 f)) [Tmp; XA; XD; OutB; OutBHi; FZ; FC; AR7]
  end.
(* 333-418 atomic_store; 354-385 order dispatch = [x_store64_tbl] *)
Definition xl_store64_fn (c : x_cfg) (b : bufs) (a v : Z) (t : fence) : fn unit :=
  match xl_wide c with
  | WSse2 => mkfn [ x_pmovsd c (b_val b) v XI Val;
                    ea c Dst; St 8 plain XI AR7 0; Fence t ]
                  (fun f => f Dst = a /\ f Val = b_val b) (fun f => Some tt)
                  (XI :: AR7 :: match t with FNone => [] | _ => [FZ; FC] end)
  | WSse => mkfn [ xor_ XI XI XI; x_pmovlps c (b_val b) v XI Val;
                   ea c Dst; St 8 plain XI AR7 0; Fence t ]
                 (fun f => f Dst = a /\ f Val = b_val b) (fun f => Some tt)
                 (XI :: AR7 :: match t with FNone => [] | _ => [FZ; FC] end)
  | _ => mkfn [ x_pld c (b_val b) 4 (low 32 v) XB XA;
                x_pld c (b_val b) 4 (Z.shiftr v 32) XC XA;
                ea c Dst;
                x_ld c 4 XA 0;
                x_ld c 4 XD 4;
                Lab 2;
                  x_cmpxchg2 8 32;
                  jne (B 2) ]
              (fun f => f Dst = a /\ f XA = b_val b)
              (fun f => Some tt) [XA; XD; XB; XC; FZ; FC; AR7]
  end.
(* 419-467 atomic_swap *)
Definition xl_swap64_fn (c : x_cfg) (b : bufs) (a v : Z) : fn Z :=
  mkfn [ xchg_rr Tmp XS;
         x_pld c (b_val b) 4 (low 32 v) XB XA;
         x_pld c (b_val b) 4 (Z.shiftr v 32) XC XA;
         ea c Dst;
         x_ld c 4 XA 0;
         x_ld c 4 XD 4;
         Lab 2;
           x_cmpxchg2 8 32;
           jne (B 2);
         x_pst c (b_out b) 4 OutB XA XS;
         x_pst c (b_out b) 4 OutBHi XD XS;
         mov XS Tmp ]
       (fun f => f Dst = a /\ f XA = b_val b /\ f Tmp = b_out b)
       (fun f => Some (join_out 32 f)) [Tmp; XA; XD; XB; XC; OutB; OutBHi; FZ; FC; AR7].
(* 468-516 atomic_compare_exchange; r.to_ne_bytes()[0] on a little-endian target = low byte *)
Definition xl_cas64_fn (c : x_cfg) (b : bufs) (a old new : Z) : fn (Z * bool) :=
  mkfn [ xchg_rr Tmp XS;
         x_pld c (b_old b) 4 (low 32 old) XA XD;
         x_pld c (b_old b) 4 (Z.shiftr old 32) XD XD;
         x_pld c (b_new b) 4 (low 32 new) XB XC;
         x_pld c (b_new b) 4 (Z.shiftr new 32) XC XC;
         ea c Dst; x_cmpxchg2 8 32;
         sete_cl;
         x_pst c (b_out b) 4 OutB XA XS;
         x_pst c (b_out b) 4 OutBHi XD XS;
         mov XS Tmp ]
       (fun f => f Dst = a /\ f XD = b_old b /\ f XC = b_new b /\ f Tmp = b_out b)
       (fun f => ret_cas_l (join_out 32 f) (low 8 (f XC))) [Tmp; XA; XD; XB; XC; OutB; OutBHi; FZ; FC; AR7].

(* ---- 128-bit on x86_64 with cmpxchg16b (527-765); rdi = [Dst]/[Src], rsi = [XS], r8 = [OutP], rbx = [XB] (must be preserved), rbx_tmp = [Tmp] ---- *)
(* 537-583 atomic_load *)
Definition xl_load128_fn (c : x_cfg) (b : bufs) (a : Z) : fn Z :=
  mkfn [ mov Tmp XB;
         xor_ XB XB XB;
         ea c Src; x_cmpxchg2 16 64;
         x_pst c (b_out b) 8 OutB XA XS;
         x_pst c (b_out b) 8 OutBHi XD XS;
         mov XB Tmp ]
       (fun f => opnd 64 (x_pw c) a (f Src) /\ opnd 64 (x_pw c) (b_out b) (f XS) /\ f XC = 0 /\ f XA = 0 /\ f XD = 0)
       (fun f => Some (join_out 64 f)) [Tmp; XA; XD; OutB; OutBHi; FZ; FC; AR7].
(* 584-635 atomic_store *)
Definition xl_store128_fn (c : x_cfg) (b : bufs) (a v : Z) : fn unit :=
  mkfn [ mov Tmp XB;
         x_pld c (b_val b) 8 (low 64 v) XB XS;
         x_pld c (b_val b) 8 (Z.shiftr v 64) XC XS;
         ea c Dst;
         x_ld c 8 XA 0;
         x_ld c 8 XD 8;
         Lab 2;
           x_cmpxchg2 16 64;
           jne (B 2);
         mov XB Tmp ]
       (fun f => opnd 64 (x_pw c) a (f Dst) /\ opnd 64 (x_pw c) (b_val b) (f XS))
       (fun f => Some tt) [Tmp; XA; XC; XD; FZ; FC; AR7].
(* 636-694 atomic_swap *)
Definition xl_swap128_fn (c : x_cfg) (b : bufs) (a v : Z) : fn Z :=
  mkfn [ mov Tmp XB;
         x_pld c (b_val b) 8 (low 64 v) XB XS;
         x_pld c (b_val b) 8 (Z.shiftr v 64) XC XS;
         ea c Dst;
         x_ld c 8 XA 0;
         x_ld c 8 XD 8;
         Lab 2;
           x_cmpxchg2 16 64;
           jne (B 2);
         x_pst c (b_out b) 8 OutB XA OutP;
         x_pst c (b_out b) 8 OutBHi XD OutP;
         mov XB Tmp ]
       (fun f => opnd 64 (x_pw c) a (f Dst) /\ opnd 64 (x_pw c) (b_val b) (f XS) /\ opnd 64 (x_pw c) (b_out b) (f OutP))
       (fun f => Some (join_out 64 f)) [Tmp; XA; XC; XD; OutB; OutBHi; FZ; FC; AR7].
(* 695-756 atomic_compare_exchange; rdx, rsi (742-743) are lateout, but named registers that are also inputs: nothing to allocate *)
Definition xl_cas128_fn (c : x_cfg) (b : bufs) (a old new : Z) : fn (Z * bool) :=
  mkfn [ mov Tmp XB;
         x_pld c (b_old b) 8 (low 64 old) XA XS;
         x_pld c (b_old b) 8 (Z.shiftr old 64) XS XS;
         x_pld c (b_new b) 8 (low 64 new) XB XD;
         x_pld c (b_new b) 8 (Z.shiftr new 64) XC XD;
         mov XD XS;
         ea c Dst; x_cmpxchg2 16 64;
         sete_cl;
         x_pst c (b_out b) 8 OutB XA OutP;
         x_pst c (b_out b) 8 OutBHi XD OutP;
         mov XB Tmp ]
       (fun f => opnd 64 (x_pw c) a (f Dst) /\ opnd 64 (x_pw c) (b_old b) (f XS) /\ opnd 64 (x_pw c) (b_new b) (f XD) /\
                 opnd 64 (x_pw c) (b_out b) (f OutP))
       (fun f => ret_cas_l (join_out 64 f) (low 8 (f XC))) [Tmp; XA; XC; XD; XS; OutB; OutBHi; FZ; FC; AR7].

(* ---- which implementation a type gets: 221-238, 520-525, 760-765; cmpxchg: 169 ---- *)
Definition xl_load (c : x_cfg) (b : bufs) (n : Z) (o : ordering) (a : Z) : impl (fn Z) :=
  if x_word c n then Impl (xl_load_fn c b n a)
  else if x_dw c n then Impl (xl_load64_fn c b a)
  else if x_qw c n then Impl (xl_load128_fn c b a) else NoImpl.
Definition xl_store (c : x_cfg) (b : bufs) (n : Z) (o : ordering) (a v : Z) : impl (fn unit) :=
  if x_word c n then with_table (x_store_tbl o) (xl_store_fn c b n a v)
  else if x_dw c n then
    match xl_wide c with
    | WCas => Impl (xl_store64_fn c b a v FNone)
    | _ => with_table (x_store64_tbl o) (xl_store64_fn c b a v)
    end
  else if x_qw c n then Impl (xl_store128_fn c b a v) else NoImpl.
Definition xl_swap (c : x_cfg) (b : bufs) (n : Z) (o : ordering) (a v : Z) : impl (fn Z) :=
  if x_word c n then Impl (xl_swap_fn c b n a v)
  else if x_dw c n then Impl (xl_swap64_fn c b a v)
  else if x_qw c n then Impl (xl_swap128_fn c b a v) else NoImpl.
Definition xl_cas (c : x_cfg) (b : bufs) (n : Z) (success failure : ordering) (a old new : Z) : impl (fn (Z * bool)) :=
  if x_word c n then if x_cmpxchg c then Impl (xl_cas_fn c b n a old new) else NoImpl
  else if x_dw c n then Impl (xl_cas64_fn c b a old new)
  else if x_qw c n then Impl (xl_cas128_fn c b a old new) else NoImpl.
