(* L3: what the accesses of one completed call guarantee, and the bridge from the checker of Check.v. *)
From Verif Require Export Check MemModel Api PropSpec.

(* a completed call of [c] on target [T], its accesses and fences in program order, and its result *)
Inductive call_items (T : arch) (c : op) : list item -> rval -> Prop :=
| ci f os s0 its sf r : op_args T c -> op_pre T c = Ret tt -> op_impl T c = Impl f -> wf_oracles os -> pc s0 = O -> f_in f (rf s0) ->
    irun (arch_mm T) (t_e T) (f_prog f) os s0 tn0 = Some (its, sf) -> at_exit (f_prog f) sf -> f_out f (rf sf) = Some r ->
    call_items T c its r.

Definition is_store (c : op) : bool := match c with OStore _ _ _ _ => true | _ => false end.
(* the ordering argument in force: compare_exchange uses the one for its outcome *)
Definition eff (c : op) (r : rval) : ordering :=
  match c with
  | OLoad _ o _ | OStore _ o _ _ | OSwap _ o _ _ => o
  | OCas _ s f _ _ _ | OCasWeak _ s f _ _ _ => match r with RCas _ false => f | _ => s end
  end.
(* the ordering of the write of the call *)
Definition weff (c : op) : ordering :=
  match c with OLoad _ o _ | OStore _ o _ _ | OSwap _ o _ _ => o | OCas _ s _ _ _ _ | OCasWeak _ s _ _ _ _ => s end.

(* how SeqCst accesses are kept in order with the SeqCst accesses of other calls of the same thread *)
Inductive disc :=
| DTail   (* each is ordered before everything after its call *)
| DHead   (* each is ordered after everything before its call *)
| DArm.   (* load-acquire / store-release with RCsc *)
Definition arch_disc (T : arch) : disc :=
  match T with Riscv _ | RiscvL _ _ | Powerpc _ | Sparc _ => DHead | Aarch64 _ | Armv8 _ | Aarch64L _ _ | Armv8L _ _ => DArm | _ => DTail end.

(* acquire by a conditional branch and isync *)
Definition arch_isync (T : arch) : bool := match T with Powerpc _ => true | _ => false end.

Definition sc_read (M : mm) (mca : bool) (d : disc) (its : list item) (i : nat) : Prop :=
  match d with
  | DTail => if mca then tailed M its i else ffa M its i
  | DHead => if mca then headed M its i else ffb M its i
  | DArm => tailed M its i /\ acqd M its i
  end.
Definition sc_write (M : mm) (mca : bool) (d : disc) (its : list item) (k : nat) : Prop :=
  match d with
  | DTail => if mca then tailed M its k else ffa M its k
  | DHead => if mca then headed M its k else ffb M its k
  | DArm => headed M its k /\ (tailed M its k \/ rel_write its k)
  end.

Record ordered (M : mm) (mca isy : bool) (d : disc) (c : op) (r : rval) (its : list item) : Prop := {
  o_store : is_store c = true -> exists k, op_write its k;
  o_reads : is_store c = false -> exists i, op_read its i;
  o_pair : is_store c = false -> forall k, op_write its k -> exists i, linked M its i k;
  o_acq : is_store c = false -> acquires (eff c r) = true -> forall i, op_read its i -> tailed M its i;
  o_rel : releases (weff c) = true -> forall k, is_write its k -> headed M its k;
  o_scr : is_store c = false -> total_order (eff c r) = true -> forall i, op_read its i -> sc_read M mca d its i;
  o_scw : total_order (eff c r) = true -> forall k, op_write its k -> sc_write M mca d its k;
  o_ctl : isy = true -> is_store c = false -> (exists k, op_write its k) -> forall i, op_read its i -> ctl_later its i   (* a branch depends on the read *)
}.

(* ---- the same on monitor states ---- *)
Definition imp (a b : bool) : bool := negb a || b.
Definition scr (mca : bool) (d : disc) (q : mq) : bool :=
  let r := q_r q in
  match d with DTail => if mca then r_t r else r_g r | DHead => if mca then r_h r else r_f r | DArm => r_t r && r_a r end.
Definition scw (mca : bool) (d : disc) (q : mq) : bool :=
  match d with DTail => if mca then q_wt q else q_wg q | DHead => if mca then q_wh q else q_wf q | DArm => q_wh q && (q_wt q || q_wl q) end.
(* [st]: the operation is a store; [oe]: ordering in force; [ow]: ordering of the write *)
Definition good1 (mca isy : bool) (d : disc) (st : bool) (oe ow : ordering) (q : mq) : bool :=
  (st || imp (isy && q_ws q) (r_c (q_r q))) && (imp st (q_ws q) && (st || q_rs q) && (st || imp (q_ws q) (q_wp q)) &&
  (st || imp (acquires oe) (r_t (q_r q))) && imp (releases ow) (q_wh q) &&
  (st || imp (total_order oe) (scr mca d q)) && imp (q_ws q && total_order oe) (scw mca d q)).
Definition good (T : arch) (c : op) (r : rval) (q : mq) : bool :=
  good1 (arch_mca T) (arch_isync T) (arch_disc T) (is_store c) (eff c r) (weff c) q.

Lemma imp_true a b : imp a b = true -> a = true -> b = true.
Proof. unfold imp. intros H ->. exact H. Qed.
Lemma dec_write its : (exists k, op_write its k) \/ forall k, ~ is_write its k.
Proof.
  induction its as [|x its IH] using rev_ind; [right; intros k (v & A & _); unfold at_ in A; destruct k; discriminate A|].
  assert ((exists v, x = IE v /\ e_w v = true) \/ ~ exists v, x = IE v /\ e_w v = true) as [(v & -> & W)|N].
  { destruct x as [v| | |]; try (right; intros (u & E & _); discriminate E). destruct (e_w v) eqn:W; [left; eauto|].
    right. intros (u & E & Wu). injection E as <-. congruence. }
  - left. exists (length its). split; [rewrite len_snoc; lia|]. split; [now apply write_snoc_new|]. intros m Hm. rewrite len_snoc in Hm. lia.
  - destruct IH as [(k & L & R & Nk)|IH].
    + left. exists k. split; [rewrite len_snoc; lia|]. split; [apply is_write_snoc; auto|]. intros m Hm W. rewrite len_snoc in Hm.
      destruct (Nat.eq_dec m (length its)) as [->|].
      * destruct W as (v & A & W). unfold at_ in A. rewrite nth_last in A. injection A as ->. eauto.
      * apply (Nk m); [lia|]. apply (is_write_snoc its x); [lia|exact W].
    + right. intros k (v & A & W). apply nth_snoc_inv in A. destruct A as [A|[_ ->]]; [apply (IH k); exists v; auto|eauto].
Qed.
Lemma good1_ordered M mca isy d c r its : good1 mca isy d (is_store c) (eff c r) (weff c) (mon M (map abs its)) = true -> ordered M mca isy d c r its.
Proof.
  pose proof (inv_mon M its) as I. revert I. generalize (mon M (map abs its)) as q. intros q I HH. unfold good1 in HH. apply andb_true_iff in HH. destruct HH as [HC H].
  repeat (apply andb_true_iff in H; let X := fresh "H" in destruct H as [H X]).
  assert (forall i, op_read its i -> facts M its i (q_r q)) as RF.
  { intros i R. unfold q_r. destruct R as [(k & W & L)|(N & L)].
    - destruct (q_ws q) eqn:E; [apply (i_e _ _ _ I _ _ W L)|]. exfalso. apply (i_ws _ _ _ I E k). apply W.
    - destruct (q_ws q) eqn:E; [|apply (i_c _ _ _ I _ L)]. destruct (dec_write its) as [(k & W)|W].
      + exfalso. apply (N k). apply W.
      + exfalso. destruct (i_wt _ _ _ I E) as (k & W'). apply (W k). apply W'. }
  constructor.
  - intros E. apply (i_wt _ _ _ I). eapply imp_true; eauto.
  - intros E. rewrite E in *. cbn [orb] in *. destruct (dec_write its) as [(k & W)|W].
    + destruct (q_ws q) eqn:Ew; [|exfalso; apply (i_ws _ _ _ I Ew k); apply W]. destruct (i_w _ _ _ I _ W) as (_ & _ & _ & _ & P).
      destruct (P (imp_true _ _ H4 eq_refl)) as (i & (_ & L) & _). exists i. left. eauto.
    + destruct (i_rt _ _ _ I H5) as (i & L). exists i. right. auto.
  - intros E k W. rewrite E in *. cbn [orb] in *. destruct (q_ws q) eqn:Ew; [|exfalso; apply (i_ws _ _ _ I Ew k); apply W].
    destruct (i_w _ _ _ I _ W) as (_ & _ & _ & _ & P). exact (P (imp_true _ _ H4 eq_refl)).
  - intros E A i R. rewrite E in *. cbn [orb] in *. apply (RF i R). eapply imp_true; eauto.
  - intros E. apply (i_wh _ _ _ I). eapply imp_true; eauto.
  - intros E A i R. rewrite E in *. cbn [orb] in *. specialize (imp_true _ _ H1 A). unfold scr, sc_read. destruct (RF i R) as (F1 & F2 & F3 & F4 & F5 & F6).
    destruct d, mca; intros X; auto; apply andb_true_iff in X; destruct X; split; auto.
  - intros A k W. destruct (q_ws q) eqn:Ew; [|exfalso; apply (i_ws _ _ _ I Ew k); apply W]. specialize (imp_true _ _ H0 A).
    pose proof (i_wh _ _ _ I) as WH. assert (is_write its k) as Wk by apply W. destruct (i_w _ _ _ I _ W) as (W1 & W2 & W3 & W4 & _).
    unfold scw, sc_write. destruct d, mca; intros X; auto; apply andb_true_iff in X; destruct X as [X1 X2]; (split; [auto|]); apply orb_true_iff in X2; tauto.
  - intros -> E (k & W) i R. rewrite E in HC. cbn [orb andb] in HC. destruct (q_ws q) eqn:Ew; [|exfalso; apply (i_ws _ _ _ I Ew k); apply W]. apply (RF i R). exact (imp_true _ _ HC eq_refl).
Qed.

Definition rok (r : rval) : bool := match r with RCas _ b => b | _ => true end.
Definition goodb (T : arch) (c : op) (b : bool) (q : mq) : bool := good T c (RCas 0 b) q.
Definition goodv (T : arch) (c : op) (okf : av -> option bool) (q : mq) (v : av) : bool :=
  match okf v with Some b => goodb T c b q | None => goodb T c true q && goodb T c false q end.
Lemma eff_rok c r : eff c r = eff c (RCas 0 (rok r)).
Proof. destruct c, r as [?| |? []]; reflexivity. Qed.

Definition ord_fn {A} (T : arch) (c : op) (g : A -> rval) (f : fn A) : Prop :=
  forall os s0 its sf r, pc s0 = O -> irun (arch_mm T) (t_e T) (f_prog f) os s0 tn0 = Some (its, sf) -> at_exit (f_prog f) sf ->
     option_map g (f_out f (rf sf)) = Some r -> ordered (arch_mm T) (arch_mca T) (arch_isync T) (arch_disc T) c r its.
Lemma ord_intro {A} T c (g : A -> rval) (f : fn A) keep brs wm zr okf :
  brs_ok (f_prog f) brs wm zr ->
  (forall j, check (arch_mm T) (f_prog f) keep brs wm zr (goodv T c okf) j = true) ->
  (forall os s0 its sf v x b, pc s0 = O -> irun (arch_mm T) (t_e T) (f_prog f) os s0 tn0 = Some (its, sf) -> at_exit (f_prog f) sf ->
     agree keep v (rf sf) -> f_out f (rf sf) = Some x -> okf v = Some b -> rok (g x) = b) ->
  ord_fn T c g f.
Proof.
  intros B C K os s0 its sf r P0 R E O. apply good1_ordered. change (good T c r (mon (arch_mm T) (map abs its)) = true).
  destruct (f_out f (rf sf)) as [x|] eqn:Eo; [|discriminate O]. injection O as <-.
  destruct (check_sound _ _ _ _ _ _ _ _ B C os s0 its sf P0 R E) as (v & Ag & G). unfold goodv in G.
  unfold good. rewrite eff_rok. change (goodb T c (rok (g x)) (mon (arch_mm T) (map abs its)) = true).
  destruct (okf v) as [b|] eqn:Ob.
  - now rewrite (K os s0 its sf v x b P0 R E Ag Eo Ob).
  - apply andb_true_iff in G. destruct (rok (g x)); tauto.
Qed.
(* blocks whose accesses are ordered whatever the outcome *)
Lemma ord_simple {A} T c (g : A -> rval) (f : fn A) keep wm zr : brs_ok (f_prog f) [] wm zr ->
  (forall j, check (arch_mm T) (f_prog f) keep [] wm zr (goodv T c (fun _ => None)) j = true) ->
  ord_fn T c g f.
Proof. intros B C. eapply ord_intro; eauto. intros; discriminate. Qed.

(* failure orderings that do not panic *)
Definition fail_ok (f : ordering) : Prop := f <> Release /\ f <> AcqRel.
Record ord_arch (T : arch) : Prop := {
  oa_load : forall n o a f, t_load T n o a = Impl f -> ord_fn T (OLoad n o a) RVal f;
  oa_store : forall n o a v f, t_store T n o a v = Impl f -> ord_fn T (OStore n o a v) (fun _ => RUnit) f;
  oa_swap : forall n o a v f, t_swap T n o a v = Impl f -> ord_fn T (OSwap n o a v) RVal f;
  oa_cas : forall n s f a x y h, fail_ok f -> t_cas T n s f a x y = Impl h -> ord_fn T (OCas n s f a x y) (fun r => RCas (fst r) (snd r)) h;
  oa_casw : forall n s f a x y h, fail_ok f -> t_casw T n s f a x y = Impl h -> ord_fn T (OCasWeak n s f a x y) (fun r => RCas (fst r) (snd r)) h
}.
Lemma pre_fail T c f : op_pre T c = Ret tt -> match c with OCas _ _ f' _ _ _ | OCasWeak _ _ f' _ _ _ => f' = f | _ => False end -> fail_ok f.
Proof.
  unfold op_pre. destruct c; cbn [op_check]; intros H E; try contradiction E; subst; split; intros ->; destruct success; discriminate H.
Qed.
Lemma ord_calls T c its r : ord_arch T -> call_items T c its r -> ordered (arch_mm T) (arch_mca T) (arch_isync T) (arch_disc T) c r its.
Proof.
  intros H [f os s0 its' sf r' _ Pre I _ P0 _ R E O]. destruct c; cbn [op_impl] in I.
  - destruct (t_load T n o a) as [| |f0] eqn:X; try discriminate I. injection I as <-. exact (oa_load T H _ _ _ _ X os s0 its' sf r' P0 R E O).
  - destruct (t_store T n o a v) as [| |f0] eqn:X; try discriminate I. injection I as <-. exact (oa_store T H _ _ _ _ _ X os s0 its' sf r' P0 R E O).
  - destruct (t_swap T n o a v) as [| |f0] eqn:X; try discriminate I. injection I as <-. exact (oa_swap T H _ _ _ _ _ X os s0 its' sf r' P0 R E O).
  - destruct (t_cas T n success failure a current new) as [| |f0] eqn:X; try discriminate I. injection I as <-. exact (oa_cas T H _ _ _ _ _ _ _ (pre_fail _ _ _ Pre eq_refl) X os s0 its' sf r' P0 R E O).
  - destruct (t_casw T n success failure a current new) as [| |f0] eqn:X; try discriminate I. injection I as <-. exact (oa_casw T H _ _ _ _ _ _ _ (pre_fail _ _ _ Pre eq_refl) X os s0 its' sf r' P0 R E O).
Qed.

(* side condition on a concrete block *)
Ltac bok := unfold brs_ok; repeat first [apply Forall_nil | apply Forall_cons; [first [exact Logic.I | intros; discriminate | split; [first [exact Logic.I | intros; reflexivity]|first [exact Logic.I|idtac]] | idtac]|]].
Lemma brs_none p : brs_ok p [] None None.
Proof. unfold brs_ok. apply Forall_forall. intros [] _; try split; auto; intros H; discriminate H. Qed.
(* find the implementation, split on orderings and configuration, run the checker *)
Ltac splits H :=
  repeat match type of H with
  | (if ?b then _ else _) = Impl _ => destruct b eqn:?
  | match ?b with LE => _ | BE => _ end = Impl _ => destruct b eqn:?
  | match ?b with true => _ | false => _ end = Impl _ => destruct b eqn:?
  end; try discriminate H.
Ltac chk := intros ?j; vm_compute; reflexivity.
Ltac ordn := eapply (ord_simple _ _ _ _ []); [apply brs_none|chk].
Tactic Notation "ordk" constr(k) := eapply (ord_simple _ _ _ _ k); [apply brs_none|chk].
Ltac ords b := eapply (ord_simple _ _ _ _ [] (Some b) None); [cbn [f_prog app]; bok|chk].
