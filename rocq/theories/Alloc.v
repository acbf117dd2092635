(* Register allocation of the asm! operands.

   In the blocks of Arch_*.v every operand has a register of its own.  The compiler may do otherwise (Rust reference, inline
   assembly, "operand type"): two [in] operands that hold the same value may get one register, and a [lateout] operand may get the
   register of an [in] operand; [out] and [inout] operands get a register that no other operand has.  A block that writes a
   [lateout] operand while it still needs an input works until the compiler picks that allocation.

   [alloc g f] is the block [f] as the assembler sees it after the compiler has chosen register [g r] for every operand [r]
   (machine registers are named by the same type; [g] need not be injective).  [permitted g f] are the rules above. *)
From Verif Require Import Spec Irq.
Local Open Scope nat_scope.

(* registers that are not operands: flags and special registers, the interrupt state, and the registers reserved by LLVM that
   blocks save and restore themselves (rbx, and esi in src/arch_legacy/x86.rs); no operand is allocated to them *)
Definition special : list reg := [FZ; FC; CCR; SAR; SCMP; P0; SREG; IrqSave; XB; XS].

Record permitted {A} (g : reg -> reg) (f : fn A) : Prop := {
  (* special registers stay what they are, and no operand is put there *)
  p_special : forall r, In r special -> g r = r /\ forall x, g x = r -> x = r;
  (* no two output operands share a register *)
  p_outs : forall r x, In r (f_clob f) -> In x (f_clob f) -> g r = g x -> r = x;
  (* an output that is not lateout shares its register with no other operand *)
  p_early : forall r x, In r (f_clob f) -> ~ In r (f_late f) -> g x = g r -> x = r }.

(* the registers of the machine as seen through the operand names *)
Definition pull (g : reg -> reg) (h : regs) : regs := fun r => h (g r).

(* the same instruction on the chosen registers *)
Definition alloc_instr (g : reg -> reg) (i : instr) : instr :=
  match i with
  | Lab n => Lab n
  | Fence f => Fence f
  | Ld sz x o rd ra off => Ld sz x o (g rd) (g ra) off
  | St sz o rv ra off => St sz o (g rv) (g ra) off
  | LL sz x o rd ra => LL sz x o (g rd) (g ra)
  | LLp at_ sz o r1 r2 ra => LLp at_ sz o (g r1) (g r2) (g ra)
  | SC sz o rst okv failv rv ra => SC sz o (g rst) okv failv (g rv) (g ra)
  | SCp sz o rst okv failv r1 r2 ra => SCp sz o (g rst) okv failv (g r1) (g r2) (g ra)
  | ClrexIf b => ClrexIf b
  | Rmw sz o ra wfun outs =>
      Rmw sz o (g ra) (fun ok v h => wfun ok v (pull g h))
          (fun ok j v h => map (fun rv => (g (fst rv), snd rv)) (outs ok j v (pull g h)))
  | Op rd fn_ srcs => Op (g rd) fn_ (map g srcs)
  | Op2 r1 r2 fn_ srcs => Op2 (g r1) (g r2) fn_ (map g srcs)
  | Br c srcs l => Br c (map g srcs) l
  | Jmp l => Jmp l
  end.
Definition alloc {A} (g : reg -> reg) (f : fn A) : fn A :=
  mkfnl (map (alloc_instr g) (f_prog f)) (fun h => f_in f (pull g h)) (fun h => f_out f (pull g h)) (map g (f_clob f)) (map g (f_late f)).

(* ---- what a block has to satisfy: after the first write to a lateout register it reads only outputs and special registers ---- *)
Definition reads (i : instr) : list reg :=
  match i with
  | Lab _ | Fence _ | ClrexIf _ | Jmp _ | Rmw _ _ _ _ _ => []
  | Ld _ _ _ _ ra _ | LL _ _ _ _ ra | LLp _ _ _ _ _ ra => [ra]
  | St _ _ rv ra _ => [rv; ra]
  | SC _ _ _ _ _ rv ra => [rv; ra]
  | SCp _ _ _ _ _ r1 r2 ra => [r1; r2; ra]
  | Op _ _ srcs | Op2 _ _ _ srcs | Br _ srcs _ => srcs
  end.
Definition writes (i : instr) : list reg :=
  match i with
  | Ld _ _ _ rd _ _ | LL _ _ _ rd _ | Op rd _ _ => [rd]
  | LLp _ _ _ r1 r2 _ | Op2 r1 r2 _ _ => [r1; r2]
  | SC _ _ rst _ _ _ _ | SCp _ _ rst _ _ _ _ _ => [rst]
  | _ => []
  end.
Definition mem_ (r : reg) (l : list reg) : bool := existsb (reg_beq r) l.
Definition sub_ (l k : list reg) : bool := forallb (fun r => mem_ r k) l.
Definition disj_ (l k : list reg) : bool := forallb (fun r => negb (mem_ r k)) l.

(* agreement of two register files on a list of registers *)
Definition agree (l : list reg) (s t : regs) : Prop := forall r, In r l -> s r = t r.
(* a read-modify-write instruction: reads registers [L] only (besides the address), writes registers [W] only *)
Definition rmw_ok (L : option (list reg)) (W : list reg) (i : instr) : Prop :=
  match i with
  | Rmw _ _ ra wfun outs =>
      match L with Some l => In ra l | None => True end /\
      (forall ok v s t, match L with Some l => agree l s t | None => forall r, s r = t r end -> wfun ok v s = wfun ok v t) /\
      (forall ok j v s t, match L with Some l => agree l s t | None => forall r, s r = t r end -> outs ok j v s = outs ok j v t) /\
      (forall ok j v s, Forall (fun rv => In (fst rv) W) (outs ok j v s))
  | _ => True
  end.
(* successors *)
Definition succs (p : list instr) (k : nat) (i : instr) : list nat :=
  match i with
  | Br _ _ l => S k :: match target p k l with Some t => [t] | None => [] end
  | Jmp l => match target p k l with Some t => [t] | None => [] end
  | _ => [S k]
  end.
(* [dirty k]: a lateout register may have been written before instruction [k] *)
Definition instr_ok (clob late : list reg) (dirty : nat -> bool) (p : list instr) (k : nat) (i : instr) : Prop :=
  let safe := clob ++ special in
  sub_ (writes i) safe = true /\
  (if dirty k then sub_ (reads i) safe = true else True) /\
  (forallb (fun k' => dirty k' || (negb (dirty k) && disj_ (writes i) late)) (succs p k i) = true) /\
  match i with
  | Rmw _ _ _ _ _ => if dirty k then rmw_ok (Some safe) safe i
                     else rmw_ok None safe i /\ (forallb dirty (succs p k i) = true \/ rmw_ok None (filter (fun r => negb (mem_ r late)) safe) i)
  | _ => True
  end.
Fixpoint instrs_ok (clob late : list reg) (dirty : nat -> bool) (p : list instr) (k : nat) (l : list instr) : Prop :=
  match l with [] => True | i :: t => instr_ok clob late dirty p k i /\ instrs_ok clob late dirty p (S k) t end.
Definition alias_ok {A} (f : fn A) : Prop :=
  incl (f_late f) (f_clob f) /\
  (forall s t, agree (f_clob f ++ special) s t -> f_out f s = f_out f t) /\
  exists dirty, dirty O = false /\ instrs_ok (f_clob f) (f_late f) dirty (f_prog f) O (f_prog f).

(* ---- the simulation ---- *)
Lemma rbeq_iff a b : reg_beq a b = true <-> a = b.
Proof. split; [apply internal_reg_dec_bl|apply internal_reg_dec_lb]. Qed.
Lemma rbeq_refl a : reg_beq a a = true. Proof. now apply rbeq_iff. Qed.
Lemma mem_in r l : mem_ r l = true <-> In r l.
Proof.
  unfold mem_. rewrite existsb_exists. split.
  - intros (x & Hx & E). apply rbeq_iff in E. now subst.
  - intros H. exists r. split; [exact H|apply rbeq_refl].
Qed.
Lemma sub_in l k : sub_ l k = true -> forall r, In r l -> In r k.
Proof. unfold sub_. rewrite forallb_forall. intros H r Hr. apply mem_in, H, Hr. Qed.
Lemma disj_in l k : disj_ l k = true -> forall r, In r l -> ~ In r k.
Proof. unfold disj_. rewrite forallb_forall. intros H r Hr Hk. specialize (H r Hr). apply mem_in in Hk. rewrite Hk in H. discriminate H. Qed.

Lemma fwd_map g p n : forall k, find_fwd (map (alloc_instr g) p) n k = find_fwd p n k.
Proof. induction p as [|i p IH]; intros k; [reflexivity|]. destruct i; cbn [map alloc_instr find_fwd]; rewrite ?IH; reflexivity. Qed.
Lemma bwd_map g n u : forall p k acc_, find_bwd (map (alloc_instr g) p) n k u acc_ = find_bwd p n k u acc_.
Proof. induction u as [|u IH]; intros p k acc_; [destruct p; reflexivity|]. destruct p as [|i p]; [reflexivity|]. destruct i; cbn [map alloc_instr find_bwd]; rewrite ?IH; reflexivity. Qed.
Lemma target_map g p k l : target (map (alloc_instr g) p) k l = target p k l.
Proof. destruct l as [n|n]; cbn [target]; [rewrite skipn_map; apply fwd_map|apply bwd_map]. Qed.

Section Sim.
  Context {A : Type} (g : reg -> reg) (f : fn A) (P : permitted g f).
  Let safe := f_clob f ++ special.
  Let late := f_late f.

  Lemma safe_inj r x : In r safe -> In x safe -> g x = g r -> x = r.
  Proof.
    unfold safe. rewrite !in_app_iff. intros [Hr|Hr] [Hx|Hx] E.
    - symmetry. apply (p_outs _ _ P); auto.
    - destruct (p_special _ _ P x Hx) as [E1 E2]. symmetry. apply E2. congruence.
    - destruct (p_special _ _ P r Hr) as [E1 E2]. apply E2. congruence.
    - destruct (p_special _ _ P r Hr) as [E1 E2]. apply E2. congruence.
  Qed.
  Lemma early_inj r x : In r safe -> ~ In r late -> g x = g r -> x = r.
  Proof.
    unfold safe. rewrite in_app_iff. intros [Hr|Hr] L E.
    - exact (p_early _ _ P r x Hr L E).
    - destruct (p_special _ _ P r Hr) as [E1 E2]. apply E2. congruence.
  Qed.

  (* [d]: a lateout register may have been written *)
  Definition rel_ (d : bool) (s h : regs) : Prop :=
    (d = false -> forall r, s r = h (g r)) /\ (forall r, In r safe -> s r = h (g r)).
  Lemma rel_weak d s h : rel_ d s h -> rel_ true s h.
  Proof. intros [_ H]. split; [discriminate|exact H]. Qed.
  (* writes to [W] may take place between [d] and [d'] *)
  Definition may_write (d d' : bool) (W : list reg) : Prop := d' = true \/ (d = false /\ forall r, In r W -> ~ In r late).
  Lemma rel_upd d d' s h r v : In r safe -> may_write d d' [r] -> rel_ d s h -> rel_ d' (upd s r v) (upd h (g r) v).
  Proof.
    intros Hr M [C D]. split.
    - intros -> x. destruct M as [M|[-> M]]; [discriminate M|]. unfold upd. destruct (reg_beq x r) eqn:E.
      + apply rbeq_iff in E. subst. now rewrite rbeq_refl.
      + destruct (reg_beq (g x) (g r)) eqn:E'; [|now apply C]. apply rbeq_iff in E'. apply early_inj in E'; [|exact Hr|apply M; now left]. subst. rewrite rbeq_refl in E. discriminate E.
    - intros x Hx. unfold upd. destruct (reg_beq x r) eqn:E.
      + apply rbeq_iff in E. subst. now rewrite rbeq_refl.
      + destruct (reg_beq (g x) (g r)) eqn:E'; [|now apply D]. apply rbeq_iff in E'. apply safe_inj in E'; [|exact Hr|exact Hx]. subst. rewrite rbeq_refl in E. discriminate E.
  Qed.
  Lemma rel_keep d d' s h : may_write d d' [] -> rel_ d s h -> rel_ d' s h.
  Proof. intros [->|[-> _]] R; [now apply rel_weak with d|]. destruct R as [C D]. split; [intros _; now apply C|exact D]. Qed.
  Lemma rel_upd2 d d' s h r1 r2 v1 v2 : In r1 safe -> In r2 safe -> may_write d d' [r1; r2] -> rel_ d s h -> rel_ d' (upd (upd s r1 v1) r2 v2) (upd (upd h (g r1) v1) (g r2) v2).
  Proof.
    intros H1 H2 M R. destruct M as [->|[-> M]].
    - apply (rel_upd true true); [exact H2|now left|]. apply (rel_upd d true); [exact H1|now left|exact R].
    - apply (rel_upd false d'); [exact H2|right; split; [reflexivity|intros r Hr; apply M; now right]|].
      apply (rel_upd false false); [exact H1|right; split; [reflexivity|intros r [->|[]]; apply M; now left]|exact R].
  Qed.
  Lemma rel_upds d l : forall s h, Forall (fun rv => In (fst rv) safe) l -> (d = false -> Forall (fun rv => ~ In (fst rv) late) l) ->
    rel_ d s h -> rel_ d (upds s l) (upds h (map (fun rv => (g (fst rv), snd rv)) l)).
  Proof.
    induction l as [|[r v] l IH]; intros s h F N R; cbn [map upds fst snd]; [exact R|]. inversion F as [|? ? F1 F2]; subst. apply IH; [exact F2| |].
    - intros E. specialize (N E). now inversion N.
    - apply (rel_upd d d); [exact F1| |exact R]. destruct d; [now left|]. right. split; [reflexivity|]. specialize (N eq_refl). inversion N; subst. intros x [<-|[]]. assumption.
  Qed.
  Lemma rel_read d s h l : rel_ d s h -> (d = true -> forall r, In r l -> In r safe) -> map h (map g l) = map s l.
  Proof. intros [C D] H. rewrite map_map. apply map_ext_in. intros r Hr. symmetry. destruct d; [apply D; auto|now apply C]. Qed.
  Lemma rel_read1 d s h r : rel_ d s h -> (d = true -> In r safe) -> h (g r) = s r.
  Proof. intros [C D] H. symmetry. destruct d; [apply D; auto|now apply C]. Qed.

  Variable dirty : nat -> bool.
  Variable e : endian.
  Let p := f_prog f.
  Definition sim (s h : tst) : Prop := pc h = pc s /\ rs h = rs s /\ rel_ (dirty (pc s)) (rf s) (rf h).

  Lemma exec_sim i o s h : instr_ok (f_clob f) (f_late f) dirty p (pc s) i -> sim s h ->
    match exec e p i o s, exec e (map (alloc_instr g) p) (alloc_instr g i) o h with
    | Some (s', m), Some (h', m') => m' = m /\ sim s' h'
    | None, None => True
    | _, _ => False
    end.
  Proof.
    intros (HW & HR & HS & HM) (Epc & Ers & R). destruct s as [k s q], h as [k' h q']. cbn [pc rs rf] in *. subst k' q'.
    pose proof (sub_in _ _ HW) as W. fold safe in W, HM. rewrite forallb_forall in HS.
    assert (RD : dirty k = true -> forall r, In r (reads i) -> In r safe). { intros D. rewrite D in HR. exact (sub_in _ _ HR). }
    assert (MW : forall k', In k' (succs p k i) -> may_write (dirty k) (dirty k') (writes i)).
    { intros k' Hk. specialize (HS k' Hk). apply orb_prop in HS. destruct HS as [HS|HS]; [now left|]. apply andb_prop in HS. destruct HS as [H1 H2]. right. split; [now destruct (dirty k)|exact (disj_in _ _ H2)]. }
    assert (MK : forall k', In k' (succs p k i) -> writes i = [] -> may_write (dirty k) (dirty k') []). { intros k' Hk E. rewrite <- E. now apply MW. }
    destruct i; cbn [exec alloc_instr reads writes succs pc rf rs] in *; unfold sim; cbn [pc rf rs].
    - split; [reflexivity|]. split; [reflexivity|]. split; [reflexivity|]. apply (rel_keep (dirty k)); [apply MK; [now left|reflexivity]|exact R].
    - split; [reflexivity|]. split; [reflexivity|]. split; [reflexivity|]. apply (rel_keep (dirty k)); [apply MK; [now left|reflexivity]|exact R].
    - rewrite (rel_read1 _ _ _ rad R) by (intros D; apply (RD D); now left). split; [reflexivity|]. split; [reflexivity|]. split; [reflexivity|].
      apply (rel_upd (dirty k)); [apply W; now left|apply MW; now left|exact R].
    - rewrite (rel_read1 _ _ _ rad R) by (intros D; apply (RD D); right; now left). rewrite (rel_read1 _ _ _ rsrc R) by (intros D; apply (RD D); now left).
      split; [reflexivity|]. split; [reflexivity|]. split; [reflexivity|]. apply (rel_keep (dirty k)); [apply MK; [now left|reflexivity]|exact R].
    - rewrite (rel_read1 _ _ _ rad R) by (intros D; apply (RD D); now left). split; [reflexivity|]. split; [reflexivity|]. split; [reflexivity|].
      apply (rel_upd (dirty k)); [apply W; now left|apply MW; now left|exact R].
    - rewrite (rel_read1 _ _ _ rad R) by (intros D; apply (RD D); now left). split; [reflexivity|]. split; [reflexivity|]. split; [reflexivity|].
      apply (rel_upd2 (dirty k)); [apply W; now left|apply W; right; now left|apply MW; now left|exact R].
    - rewrite (rel_read1 _ _ _ rad R) by (intros D; apply (RD D); right; now left). rewrite (rel_read1 _ _ _ rsrc R) by (intros D; apply (RD D); now left).
      destruct (o_ok o && sc_may e (o_mem o) q (s rad) sz); (split; [reflexivity|]; split; [reflexivity|]; split; [reflexivity|]; apply (rel_upd (dirty k)); [apply W; now left|apply MW; now left|exact R]).
    - rewrite (rel_read1 _ _ _ rad R) by (intros D; apply (RD D); right; right; now left). rewrite (rel_read1 _ _ _ r1 R) by (intros D; apply (RD D); now left).
      rewrite (rel_read1 _ _ _ r2 R) by (intros D; apply (RD D); right; now left).
      destruct (o_ok o && scp_may e (o_mem o) q (s rad) sz); (split; [reflexivity|]; split; [reflexivity|]; split; [reflexivity|]; apply (rel_upd (dirty k)); [apply W; now left|apply MW; now left|exact R]).
    - split; [reflexivity|]. split; [reflexivity|]. split; [reflexivity|]. apply (rel_keep (dirty k)); [apply MK; [now left|reflexivity]|exact R].
    - assert (Hra : h (g rad) = s rad). { apply (rel_read1 (dirty k) _ _ _ R). intros D. rewrite D in HM. exact (proj1 HM). }
      rewrite Hra.
      assert (Hw : forall ok v, wfun ok v (pull g h) = wfun ok v s).
      { intros ok v. destruct R as [C D0]. destruct (dirty k) eqn:D.
        - destruct HM as (_ & H & _). apply H. intros r Hr. unfold pull. symmetry. now apply D0.
        - destruct HM as ((_ & H & _) & _). apply H. intros r. unfold pull. symmetry. now apply C. }
      assert (Ho : forall ok j v, outs ok j v (pull g h) = outs ok j v s).
      { intros ok j v. destruct R as [C D0]. destruct (dirty k) eqn:D.
        - destruct HM as (_ & _ & H & _). apply H. intros r Hr. unfold pull. symmetry. now apply D0.
        - destruct HM as ((_ & _ & H & _) & _). apply H. intros r. unfold pull. symmetry. now apply C. }
      rewrite Hw, Ho. split; [reflexivity|]. split; [reflexivity|]. split; [reflexivity|].
      specialize (HS (S k) (or_introl eq_refl)).
      destruct (dirty k) eqn:D.
      + destruct HM as (_ & _ & _ & H). destruct (dirty (S k)) eqn:D'; [|discriminate HS]. apply rel_upds; [apply H|discriminate|exact R].
      + destruct HM as ((_ & _ & _ & H) & H2). destruct (dirty (S k)) eqn:D'.
        * apply rel_upds; [apply H|discriminate|exact (rel_weak _ _ _ R)].
        * apply rel_upds; [apply H| |exact R]. intros _. destruct H2 as [H2|(_ & _ & _ & H2)]; [cbn [forallb] in H2; rewrite D' in H2; discriminate H2|].
          eapply Forall_impl; [|apply H2]. intros [r v] Hr. cbn [fst] in *. apply filter_In in Hr. destruct Hr as [_ Hr]. intros L. apply mem_in in L. unfold late in L. rewrite L in Hr. discriminate Hr.
    - rewrite (rel_read _ _ _ srcs R RD). split; [reflexivity|]. split; [reflexivity|]. split; [reflexivity|]. apply (rel_upd (dirty k)); [apply W; now left|apply MW; now left|exact R].
    - rewrite (rel_read _ _ _ srcs R RD). match goal with |- context [let '(_, _) := ?x in _] => destruct x as [v1 v2] end. cbn [pc rf rs].
      split; [reflexivity|]. split; [reflexivity|]. split; [reflexivity|]. apply (rel_upd2 (dirty k)); [apply W; now left|apply W; right; now left|apply MW; now left|exact R].
    - rewrite (rel_read _ _ _ srcs R RD), target_map. destruct (c (map s srcs)).
      + destruct (target p k l) as [t|] eqn:E; [|exact Logic.I]. cbn [pc rf rs]. split; [reflexivity|]. split; [reflexivity|]. split; [reflexivity|].
        apply (rel_keep (dirty k)); [apply MK; [right; now left|reflexivity]|exact R].
      + split; [reflexivity|]. split; [reflexivity|]. split; [reflexivity|]. apply (rel_keep (dirty k)); [apply MK; [now left|reflexivity]|exact R].
    - rewrite target_map. destruct (target p k l) as [t|] eqn:E; [|exact Logic.I]. cbn [pc rf rs]. split; [reflexivity|]. split; [reflexivity|]. split; [reflexivity|].
      apply (rel_keep (dirty k)); [apply MK; [now left|reflexivity]|exact R].
  Qed.

  Lemma nth_ok l : forall k n i, instrs_ok (f_clob f) (f_late f) dirty p k l -> nth_error l n = Some i -> instr_ok (f_clob f) (f_late f) dirty p (k + n) i.
  Proof.
    induction l as [|x l IH]; intros k n i H E; [destruct n; discriminate E|]. destruct H as [H1 H2]. destruct n as [|n].
    - injection E as <-. rewrite Nat.add_0_r. exact H1.
    - rewrite <- Nat.add_succ_comm. exact (IH (S k) n i H2 E).
  Qed.
  Variable OKS : instrs_ok (f_clob f) (f_late f) dirty p 0 p.

  Lemma run_sim os : forall s h, sim s h ->
    match run e p os s, run e (map (alloc_instr g) p) os h with
    | Ran t s', Ran t' h' => t' = t /\ sim s' h'
    | Stuck, Stuck => True
    | _, _ => False
    end.
  Proof.
    induction os as [|o os IH]; intros s h HS; cbn [run]; [now split|]. rewrite (proj1 HS), nth_error_map.
    destruct (nth_error p (pc s)) as [i|] eqn:E; cbn [option_map]; [|now split].
    pose proof (exec_sim i o s h (nth_ok p 0 (pc s) i OKS E) HS) as X.
    destruct (exec e p i o s) as [[s' m]|], (exec e (map (alloc_instr g) p) (alloc_instr g i) o h) as [[h' m']|]; try contradiction; [|exact Logic.I].
    destruct X as [-> HS']. specialize (IH s' h' HS'). destruct (run e p os s'), (run e (map (alloc_instr g) p) os h'); try contradiction; [|exact Logic.I].
    destruct IH as [-> IH]. now split.
  Qed.
  Lemma irq_sim ie os : (forall s t, s SREG = t SREG -> ie s = ie t) -> forall cur s h, sim s h ->
    match run_irq e p ie os cur s, run_irq e (map (alloc_instr g) p) ie os cur h with
    | Some (t, c, s'), Some (t', c', h') => t' = t /\ c' = c /\ sim s' h'
    | None, None => True
    | _, _ => False
    end.
  Proof.
    intros HI. induction os as [|o os IH]; intros cur s h HS; cbn [run_irq]; [repeat split; apply HS|]. rewrite (proj1 HS), nth_error_map.
    destruct (nth_error p (pc s)) as [i|] eqn:E; cbn [option_map]; [|repeat split; apply HS].
    set (om := mkor _ _ _). pose proof (exec_sim i om s h (nth_ok p 0 (pc s) i OKS E) HS) as X.
    destruct (exec e p i om s) as [[s' m]|], (exec e (map (alloc_instr g) p) (alloc_instr g i) om h) as [[h' m']|]; try contradiction; [|exact Logic.I].
    destruct X as [-> HS']. rewrite (HI (rf h') (rf s')).
    2:{ destruct HS' as (_ & _ & [_ D]). rewrite (D SREG) by (unfold safe; apply in_or_app; right; cbn; tauto).
        destruct (p_special _ _ P SREG) as [-> _]; [cbn; tauto|reflexivity]. }
    destruct (ie (rf s')).
    - specialize (IH None s' h' HS'). destruct (run_irq e p ie os None s') as [[[t c] sf]|], (run_irq e (map (alloc_instr g) p) ie os None h') as [[[t' c'] hf]|]; try contradiction; [|exact Logic.I].
      destruct IH as (-> & -> & IH). now repeat split; try apply IH.
    - exact (IH _ s' h' HS').
  Qed.

  (* what the allocated block does not write *)
  Lemma upds_other y l : forall h, Forall (fun rv : reg * Z => In (fst rv) safe) l -> ~ In y (map g safe) -> upds h (map (fun rv => (g (fst rv), snd rv)) l) y = h y.
  Proof.
    induction l as [|[r v] l IH]; intros h F N; cbn [map upds fst snd]; [reflexivity|]. inversion F; subst. rewrite IH by assumption. unfold upd.
    destruct (reg_beq y (g r)) eqn:E; [|reflexivity]. apply rbeq_iff in E. subst. exfalso. apply N. now apply in_map.
  Qed.
  Lemma upd_other y h r v : In r safe -> ~ In y (map g safe) -> upd h (g r) v y = h y.
  Proof. intros Hr N. unfold upd. destruct (reg_beq y (g r)) eqn:E; [|reflexivity]. apply rbeq_iff in E. subst. exfalso. apply N. now apply in_map. Qed.
  Lemma exec_other y i o k h h' m : instr_ok (f_clob f) (f_late f) dirty p k i -> ~ In y (map g safe) ->
    exec e (map (alloc_instr g) p) (alloc_instr g i) o h = Some (h', m) -> rf h' y = rf h y.
  Proof.
    intros (HW & _ & _ & HM) N E. pose proof (sub_in _ _ HW) as W. fold safe in W, HM. destruct i; cbn [exec alloc_instr writes] in *.
    1,2,4,9: (injection E as <- <-; reflexivity).
    - injection E as <- <-. cbn [rf]. apply upd_other; [apply W; now left|exact N].
    - injection E as <- <-. cbn [rf]. apply upd_other; [apply W; now left|exact N].
    - injection E as <- <-. cbn [rf]. rewrite !upd_other; [reflexivity|apply W; now left|exact N|apply W; right; now left|exact N].
    - destruct (o_ok o && sc_may e (o_mem o) (rs h) (rf h (g rad)) sz); injection E as <- <-; cbn [rf]; (apply upd_other; [apply W; now left|exact N]).
    - destruct (o_ok o && scp_may e (o_mem o) (rs h) (rf h (g rad)) sz); injection E as <- <-; cbn [rf]; (apply upd_other; [apply W; now left|exact N]).
    - injection E as <- <-. cbn [rf]. apply upds_other; [|exact N]. destruct (dirty k); [apply HM|apply (proj1 HM)].
    - injection E as <- <-. cbn [rf]. apply upd_other; [apply W; now left|exact N].
    - destruct (f0 (o_junk o) (map (rf h) (map g srcs))) as [v1 v2]. injection E as <- <-. cbn [rf]. rewrite !upd_other; [reflexivity|apply W; now left|exact N|apply W; right; now left|exact N].
    - destruct (c (map (rf h) (map g srcs))); [|injection E as <- <-; reflexivity]. destruct (target (map (alloc_instr g) p) (pc h) l); [|discriminate E]. injection E as <- <-. reflexivity.
    - destruct (target (map (alloc_instr g) p) (pc h) l); [|discriminate E]. injection E as <- <-. reflexivity.
  Qed.
  Lemma run_other y os : ~ In y (map g safe) -> forall h t h', run e (map (alloc_instr g) p) os h = Ran t h' -> rf h' y = rf h y.
  Proof.
    intros N. induction os as [|o os IH]; intros h t h' H; cbn [run] in H; [injection H as <- <-; reflexivity|]. rewrite nth_error_map in H.
    destruct (nth_error p (pc h)) as [i|] eqn:E; cbn [option_map] in H; [|injection H as <- <-; reflexivity].
    destruct (exec e (map (alloc_instr g) p) (alloc_instr g i) o h) as [[h1 m]|] eqn:X; [|discriminate H].
    apply (exec_other y i o (pc h) h h1 m (nth_ok p 0 (pc h) i OKS E) N) in X.
    destruct (run e (map (alloc_instr g) p) os h1) as [t1 h2|] eqn:Y; [|discriminate H]. injection H as <- <-. rewrite (IH h1 t1 h2 Y). exact X.
  Qed.
  Lemma irq_other ie y os : ~ In y (map g safe) -> forall cur h t c h', run_irq e (map (alloc_instr g) p) ie os cur h = Some (t, c, h') -> rf h' y = rf h y.
  Proof.
    intros N. induction os as [|o os IH]; intros cur h t c h' H; cbn [run_irq] in H; [injection H as <- <- <-; reflexivity|]. rewrite nth_error_map in H.
    destruct (nth_error p (pc h)) as [i|] eqn:E; cbn [option_map] in H; [|injection H as <- <- <-; reflexivity].
    set (om := mkor _ _ _) in H.
    destruct (exec e (map (alloc_instr g) p) (alloc_instr g i) om h) as [[h1 m]|] eqn:X; [|discriminate H].
    apply (exec_other y i om (pc h) h h1 m (nth_ok p 0 (pc h) i OKS E) N) in X.
    destruct (ie (rf h1)).
    - destruct (run_irq e (map (alloc_instr g) p) ie os None h1) as [[[t1 c1] h2]|] eqn:Y; [|discriminate H]. injection H as <- <- <-. rewrite (IH None h1 t1 c1 h2 Y). exact X.
    - rewrite (IH _ _ _ _ _ H). exact X.
  Qed.
End Sim.

(* ---- transfer ---- *)
Lemma start_sim {A} g (f : fn A) dirty h : dirty O = false -> pc h = O -> sim g f dirty (mkst O (pull g (rf h)) (rs h)) h.
Proof. intros D E. split; [exact E|]. split; [reflexivity|]. split; intros; reflexivity. Qed.
Lemma out_sim {A} g (f : fn A) dirty s h : (forall s t, agree (f_clob f ++ special) s t -> f_out f s = f_out f t) -> sim g f dirty s h ->
  f_out f (pull g (rf h)) = f_out f (rf s).
Proof. intros HO (_ & _ & [_ D]). apply HO. intros r Hr. symmetry. exact (D r Hr). Qed.

Theorem alloc_atomic {A} e g (f : fn A) spec : permitted g f -> alias_ok f -> atomic_fn e f spec -> atomic_fn e (alloc g f) spec.
Proof.
  intros P (_ & HO & dirty & D0 & OKS) H os h0 Wo Hp Hi. cbn [alloc f_prog f_in f_out] in *.
  set (s0 := mkst O (pull g (rf h0)) (rs h0)). specialize (H os s0 Wo eq_refl Hi).
  pose proof (run_sim g f P dirty e OKS os s0 h0 (start_sim g f dirty h0 D0 Hp)) as X.
  destruct (run e (f_prog f) os s0) as [t sf|], (run e (map (alloc_instr g) (f_prog f)) os h0) as [t' hf|]; try contradiction.
  destruct X as [-> X]. destruct H as [H1 H2]. split; [|exact H2]. intros E.
  rewrite (out_sim g f dirty sf hf HO X). apply H1. unfold at_exit in *. rewrite map_length in E. now rewrite <- (proj1 X).
Qed.
Theorem alloc_atomic_irq {A} e ie g (f : fn A) spec : (forall s t, s SREG = t SREG -> ie s = ie t) ->
  permitted g f -> alias_ok f -> atomic_irq e ie f spec -> atomic_irq e ie (alloc g f) spec.
Proof.
  intros HI P (_ & HO & dirty & D0 & OKS) H os h0 m0 Wo Wm Hp Hi. cbn [alloc f_prog f_in f_out] in *.
  set (s0 := mkst O (pull g (rf h0)) (rs h0)). specialize (H os s0 m0 Wo Wm eq_refl Hi).
  assert (EI : forall s h : tst, sim g f dirty s h -> ie (rf h) = ie (rf s)).
  { intros s h (_ & _ & [_ D]). apply HI. rewrite (D SREG) by (apply in_or_app; right; cbn; tauto). destruct (p_special _ _ P SREG) as [-> _]; [cbn; tauto|reflexivity]. }
  pose proof (start_sim g f dirty h0 D0 Hp) as S0. rewrite (EI _ _ S0). fold s0 in S0.
  pose proof (irq_sim g f P dirty e OKS ie os HI (if ie (rf s0) then None else Some (m0, m0)) s0 h0 S0) as X. change (rf {| pc := 0; rf := pull g (rf h0); rs := rs h0 |}) with (rf s0).
  destruct (run_irq e (f_prog f) ie os _ s0) as [[[t c] sf]|], (run_irq e (map (alloc_instr g) (f_prog f)) ie os _ h0) as [[[t' c'] hf]|]; try contradiction.
  destruct X as (-> & -> & X). destruct H as [H1 H2]. split; [|exact H2]. intros E.
  rewrite (out_sim g f dirty sf hf HO X), (EI _ _ X). apply H1. unfold at_exit in *. rewrite map_length in E. now rewrite <- (proj1 X).
Qed.

Lemma keep_final {A} g (f : fn A) dirty s0 h0 sf hf y : permitted g f -> sim g f dirty s0 h0 -> sim g f dirty sf hf ->
  (forall r, ~ In r (f_clob f) -> rf sf r = rf s0 r) -> (~ In y (map g (f_clob f ++ special)) -> rf hf y = rf h0 y) ->
  ~ In y (map g (f_clob f)) -> rf hf y = rf h0 y.
Proof.
  intros P (_ & _ & [_ D0]) (_ & _ & [_ D1]) C O N. destruct (mem_ y special) eqn:E.
  - apply mem_in in E. destruct (p_special _ _ P y E) as [G _].
    assert (Hs : In y (f_clob f ++ special)) by (apply in_or_app; now right).
    specialize (D0 y Hs). specialize (D1 y Hs). rewrite G in D0, D1. rewrite <- D0, <- D1. apply C. intros Hc. apply N. rewrite <- G. now apply in_map.
  - apply O. rewrite map_app, in_app_iff. intros [H|H]; [contradiction|]. apply in_map_iff in H. destruct H as (r & Er & Hr).
    destruct (p_special _ _ P r Hr) as [G _]. rewrite G in Er. subst. apply mem_in in Hr. congruence.
Qed.
Theorem alloc_contract {A} e g (f : fn A) : permitted g f -> alias_ok f -> contract e f -> contract e (alloc g f).
Proof.
  intros P (_ & HO & dirty & D0 & OKS) H os h0 t hf Hp Hi Wo HR HE y Hy. cbn [alloc f_prog f_in f_clob] in *.
  set (s0 := mkst O (pull g (rf h0)) (rs h0)). pose proof (start_sim g f dirty h0 D0 Hp) as S0. fold s0 in S0.
  pose proof (run_sim g f P dirty e OKS os s0 h0 S0) as X. rewrite HR in X.
  destruct (run e (f_prog f) os s0) as [t' sf|] eqn:E; [|contradiction]. destruct X as [-> X].
  apply (keep_final g f dirty s0 h0 sf hf y P S0 X); [|intros N; exact (run_other g f dirty e OKS y os N h0 _ hf HR)|exact Hy].
  intros r Hr. apply (H os s0 t' sf eq_refl Hi Wo E); [|exact Hr]. unfold at_exit in *. rewrite map_length in HE. now rewrite <- (proj1 X).
Qed.
Theorem alloc_contract_irq {A} e ie g (f : fn A) : (forall s t, s SREG = t SREG -> ie s = ie t) ->
  permitted g f -> alias_ok f -> contract_irq e ie f -> contract_irq e ie (alloc g f).
Proof.
  intros HI P (_ & HO & dirty & D0 & OKS) H os h0 c0 t c hf Hp Hi HR HE y Hy. cbn [alloc f_prog f_in f_clob] in *.
  set (s0 := mkst O (pull g (rf h0)) (rs h0)). pose proof (start_sim g f dirty h0 D0 Hp) as S0. fold s0 in S0.
  pose proof (irq_sim g f P dirty e OKS ie os HI c0 s0 h0 S0) as X. rewrite HR in X.
  destruct (run_irq e (f_prog f) ie os c0 s0) as [[[t' c'] sf]|] eqn:E; [|contradiction]. destruct X as (-> & -> & X).
  apply (keep_final g f dirty s0 h0 sf hf y P S0 X); [|intros N; exact (irq_other g f dirty e OKS ie y os N c0 h0 _ _ hf HR)|exact Hy].
  intros r Hr. apply (H os s0 c0 t' c' sf eq_refl Hi E); [|exact Hr]. unfold at_exit in *. rewrite map_length in HE. now rewrite <- (proj1 X).
Qed.
Theorem alloc_progress {A} e g (f : fn A) a n L : permitted g f -> alias_ok f -> progress e f a n L -> progress e (alloc g f) a n L.
Proof.
  intros P (_ & HO & dirty & D0 & OKS) H os h0 w Wo Hp Hi. cbn [alloc f_prog f_in] in *.
  set (s0 := mkst O (pull g (rf h0)) (rs h0)). specialize (H os s0 w Wo eq_refl Hi).
  pose proof (run_sim g f P dirty e OKS os s0 h0 (start_sim g f dirty h0 D0 Hp)) as X.
  destruct (run e (f_prog f) os s0) as [t sf|], (run e (map (alloc_instr g) (f_prog f)) os h0) as [t' hf|]; try contradiction; cbn [trace_of] in *; [|exact H].
  destruct X as [-> _]. exact H.
Qed.
