(* L3: what one run of a block looks like to the memory system: a list of reads, writes and fences in program order.  Ordering rules
   of the instruction sets are data of type [mm] (memory model), see [arch_mm] in MemModel.v. *)
From Verif Require Export Steps.

(* one access to shared memory; [e_b] gives the bytes read / written (meaningful on [e_a .. e_a + e_n - 1]);
   [e_o]: ordering annotation the model attaches to the access; [e_x]: a write that forms one read-modify-write with the read before it
   (store-conditional with its load-linked, or an atomic instruction); [e_t]: a load-linked pair whose two halves were not read at one instant
   (AArch64 ldxp without FEAT_LSE2) *)
Record ev := mkev { e_w : bool; e_a : Z; e_n : Z; e_b : mem; e_o : acc; e_x : bool; e_t : bool }.
Inductive item :=
| IE (v : ev)
| IF (f : fence)
| IFull            (* the barrier effect built into an instruction (x86 lock prefix, s390x CS, LoongArch am*_db, ...) *)
| ICtl (b : bool). (* conditional branch; [b]: its condition depends on the most recent read *)

(* how annotations of instructions become annotations of their read and write *)
Inductive style :=
| SArm   (* acquire concerns the read, release the write *)
| SRv    (* RISC-V: both annotations concern the instruction as a whole *)
| SNone. (* no annotations; barriers only *)
Record mm := mkmm {
  m_base : bool -> bool -> bool;           (* program order of (earlier is a write?) (later is a write?) always respected *)
  m_ford : fence -> bool -> bool -> bool;  (* the fence orders an earlier / a later access of these kinds *)
  m_full : fence -> bool;                  (* the fence is a full (cumulative, propagation) barrier *)
  m_isync : fence -> bool;                 (* conditional branch + this fence orders a read it depends on before everything later *)
  m_style : style;
  m_rmwfull : acc -> bool;                 (* atomic instruction with this annotation is also a full barrier on both sides *)
  m_scfull : acc -> bool;                  (* the same for a successful store-conditional *)
  m_rcsc : bool;                           (* release write before acquire read (not RCpc) is respected *)
  m_dep : bool                             (* track dependencies of branches (only needed with m_isync) *)
}.
Definition r_acc (M : mm) (o : acc) : acc :=
  match m_style M with SArm => mkacc (a_aq o) false (a_pc o) | SRv => o | SNone => plain end.
Definition w_acc (M : mm) (o : acc) : acc :=
  match m_style M with SArm => mkacc false (a_rl o) false | SRv => o | SNone => plain end.

(* dependency tracking: [ta] = registers whose value depends on the most recent read; [ll] = that read is the load-linked holding
   the reservation *)
Record tn := mktn { ta : list reg; ll : bool }.
Definition inr (r : reg) (l : list reg) : bool := existsb (reg_beq r) l.
Definition delr (r : reg) (l : list reg) : list reg := filter (fun x => negb (reg_beq x r)) l.
Definition prop_t (M : mm) (t : tn) (r : reg) (b : bool) : tn :=
  if m_dep M then mktn (if b then r :: delr r (ta t) else delr r (ta t)) (ll t) else t.
Definition read_t (M : mm) (rs : list reg) (l : bool) : tn := mktn (if m_dep M then rs else []) l.
Definition t_step (M : mm) (i : instr) (t : tn) : tn :=
  match i with
  | Ld _ _ _ r _ _ => read_t M [r] false
  | LL _ _ _ r _ => read_t M [r] true
  | LLp _ _ _ r1 r2 _ => read_t M [r1; r2] true
  (* Power ISA, import barriers: the branch on the result of a store-conditional counts as depending on its load-linked *)
  | SC _ _ rst _ _ _ _ => prop_t M t rst (ll t)
  | SCp _ _ rst _ _ _ _ _ => prop_t M t rst (ll t)
  (* registers written by an atomic instruction: those of a nominal execution *)
  | Rmw _ _ _ _ outs => if reads outs then read_t M (if m_dep M then map fst (outs true 0 0 (fun _ => 0)) else []) false else t
  | Op r _ srcs => prop_t M t r (existsb (fun s => inr s (ta t)) srcs)
  | Op2 r1 r2 _ srcs => let b := existsb (fun s => inr s (ta t)) srcs in prop_t M (prop_t M t r1 b) r2 b
  | ClrexIf b => if b then mktn (ta t) false else t
  | _ => t
  end.

(* the items of one instruction executed from state [s] under oracle [o] *)
Definition fulls (b : bool) : list item := if b then [IFull] else [].
Definition emit (M : mm) (e : endian) (i : instr) (o : oracle) (s : tst) (t : tn) : list item :=
  let m := o_mem o in
  let f := rf s in
  match i with
  | Fence x => [IF x]
  | Ld sz _ ac _ ra off => [IE (mkev false (f ra + off) sz m (r_acc M ac) false false)]
  | St sz ac r ra off => [IE (mkev true (f ra + off) sz (wr e m (f ra + off) sz (f r)) (w_acc M ac) false false)]
  | LL sz _ ac _ ra => [IE (mkev false (f ra) sz m (r_acc M ac) false false)]
  | LLp at_ sz ac _ _ ra =>
      let v2 := if at_ then rd e m (f ra + sz) sz else if o_ok o then rd e m (f ra + sz) sz else low (8 * sz) (o_junk o) in
      [IE (mkev false (f ra) (2 * sz) (wr e m (f ra + sz) sz v2) (r_acc M ac) false (negb at_ && negb (o_ok o)))]
  | SC sz ac _ _ _ r ra =>
      if o_ok o && sc_may e m (rs s) (f ra) sz
      then fulls (m_scfull M ac) ++ [IE (mkev true (f ra) sz (wr e m (f ra) sz (f r)) (w_acc M ac) (ll t) false)] ++ fulls (m_scfull M ac)
      else []
  | SCp sz ac _ _ _ r1 r2 ra =>
      if o_ok o && scp_may e m (rs s) (f ra) sz
      then fulls (m_scfull M ac) ++
           [IE (mkev true (f ra) (2 * sz) (wr e (wr e m (f ra) sz (f r1)) (f ra + sz) sz (f r2)) (w_acc M ac) (ll t) false)] ++
           fulls (m_scfull M ac)
      else []
  | Rmw sz ac ra wfun outs =>
      fulls (m_rmwfull M ac) ++
      (if reads outs then [IE (mkev false (f ra) sz m (r_acc M ac) false false)] else []) ++
      match wfun (o_ok o) (rd e m (f ra) sz) f with
      | Some w => [IE (mkev true (f ra) sz (wr e m (f ra) sz w) (w_acc M ac) (reads outs) false)]
      | None => [] end ++
      fulls (m_rmwfull M ac)
  | Br _ srcs _ => [ICtl (existsb (fun r => inr r (ta t)) srcs)]
  | _ => []
  end.

(* [run] of Machine.v, collecting items instead of memories *)
Fixpoint irun (M : mm) (e : endian) (p : list instr) (os : list oracle) (s : tst) (t : tn) : option (list item * tst) :=
  match os with
  | [] => Some ([], s)
  | o :: os' =>
    match nth_error p (pc s) with
    | None => Some ([], s)
    | Some i =>
      match exec e p i o s with
      | None => None
      | Some (s', _) =>
        match irun M e p os' s' (t_step M i t) with
        | Some (l, sf) => Some (emit M e i o s t ++ l, sf)
        | None => None
        end
      end
    end
  end.
Definition tn0 := mktn [] false.

Lemma irun_run M e p os s t : 
  match run e p os s with
  | Ran _ sf => exists l, irun M e p os s t = Some (l, sf)
  | Stuck => irun M e p os s t = None
  end.
Proof.
  revert s t. induction os as [|o os IH]; intros s t; cbn [run irun]; [eexists; reflexivity|].
  destruct (nth_error p (pc s)) as [i|]; [|eexists; reflexivity].
  destruct (exec e p i o s) as [[s' m']|]; [|reflexivity].
  specialize (IH s' (t_step M i t)). destruct (run e p os s'); [|now rewrite IH].
  destruct IH as [l ->]. eexists; reflexivity.
Qed.
