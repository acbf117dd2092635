(* L3: release / acquire communication (C28) on every target. *)
From Verif Require Export GraphProofs Solid.

(* Release sequences: [w'] is [w], or the write of a read-modify-write that has taken a byte from the sequence (and writes it), by any thread.
   [P] restricts the read-modify-writes. *)
Inductive rseq (G : graph) (P : eid -> eid -> Prop) : eid -> eid -> Prop :=
| rs_head w : rseq G P w w
| rs_rmw b w r1 w1 w' : g_rf G b w r1 -> rmw_pair G r1 w1 -> writes_b G w1 b -> P r1 w1 -> rseq G P w1 w' -> rseq G P w w'.
(* the read and the write of a call of the library *)
Definition lib_rmw (G : graph) (r w : eid) : Prop :=
  exists t q c v its, call_at G t q c v its /\ is_store c = false /\ the_read G r t q its /\ the_write G w t q its.
(* [r] takes a byte from the release sequence of [w].  Read-modify-writes of other code than the library count if [r] takes the byte from
   another thread. *)
Definition synchronizes (G : graph) (w r : eid) : Prop :=
  (exists b w', rseq G (lib_rmw G) w w' /\ g_rf G b w' r) \/ (exists b w', rseq G (fun _ _ => True) w w' /\ g_rf G b w' r /\ apart w' r).

Lemma sync_rf G b w r : g_rf G b w r -> synchronizes G w r.
Proof. intros F. left. exists b, w. split; [constructor|exact F]. Qed.
Lemma ct1 {A} (R : A -> A -> Prop) x y : R x y -> clos_trans A R x y.
Proof. apply Relation_Operators.t_step. Qed.
Lemma ow_unique its a b : op_write its a -> op_write its b -> a = b.
Proof. intros (A1 & A2 & A3) (B1 & B2 & B3). destruct (lt_eq_lt_dec a b) as [[Q|Q]|Q]; auto; exfalso; [apply (A3 b)|apply (B3 a)]; auto. Qed.
Lemma lr_unique its k a b : last_read its k a -> last_read its k b -> a = b.
Proof. intros (A1 & A2 & A3) (B1 & B2 & B3). destruct (lt_eq_lt_dec a b) as [[Q|Q]|Q]; auto; exfalso; [apply (A3 b)|apply (B3 a)]; auto. Qed.
Lemma or_unique its a b : op_read its a -> op_read its b -> a = b.
Proof.
  intros [(k & K & L)|(N & L)] [(k' & K' & L')|(N' & L')].
  - rewrite (ow_unique _ _ _ K K') in L. exact (lr_unique _ _ _ _ L L').
  - exfalso. apply (N' k). apply K.
  - exfalso. apply (N k'). apply K'.
  - exact (lr_unique _ _ _ _ L L').
Qed.
Lemma or_lt its a k : op_read its a -> op_write its k -> last_read its k a.
Proof. intros [(k' & K & L)|(N & _)] W; [now rewrite (ow_unique _ _ _ W K)|exfalso; apply (N k); apply W]. Qed.

Section P.
Context (T : arch) (G : graph) (X : execution T G).
Notation M := (arch_mm T).
Notation Sa := (ex_sane T G X).

Lemma rmw_tlo x y : rmw_pair G x y -> tlo T G x y.
Proof. intros [F R]. split; auto. left. now apply lo_rmw. Qed.
Lemma rmw_po x y : rmw_pair G x y -> po x y.
Proof. intros [F (v & _ & _ & _ & L & _)]. split; auto. Qed.
Lemma rmw_read x y : rmw_pair G x y -> exists u, ev_at G x u /\ e_w u = false.
Proof. intros [F (v & _ & _ & _ & _ & R & _)]. exact R. Qed.
Lemma rmw_solid x y : rmw_pair G x y -> solid G x.
Proof. intros R. destruct (rmw_read _ _ R) as (u & U & _). exists u. split; auto. right. right. eauto. Qed.
Lemma write_solid b x : writes_b G x b -> solid G x.
Proof. intros (v & A & W & _). exists v. auto. Qed.
Lemma rf_ends b w r : g_rf G b w r -> writes_b G w b /\ reads_b G r b.
Proof. intros H. destruct (rf_wf _ Sa _ _ _ H) as (v & u & ? & ? & ? & ? & ? & ? & _). split; [exists v|exists u]; auto. Qed.

(* [x] comes before [y] in an order the machine keeps to *)
Definition far (x y : eid) : Prop := if arch_mca T then clos_trans _ (ob T G) x y else clos_trans _ (hb T G) x y.
Lemma far_ob x y : arch_mca T = true -> far x y -> clos_trans _ (ob T G) x y.
Proof. unfold far. now intros ->. Qed.
Lemma far_hb x y : arch_mca T = false -> far x y -> clos_trans _ (hb T G) x y.
Proof. unfold far. now intros ->. Qed.
Lemma far_trans x y z : far x y -> far y z -> far x z.
Proof. unfold far. destruct (arch_mca T); apply t_trans. Qed.
Lemma far_tlo x y : tlo T G x y -> far x y.
Proof. intros H. unfold far. destruct (arch_mca T); apply ct1; left; exact H. Qed.
Lemma far_rfe b w r : g_rf G b w r -> apart w r -> solid G r -> far w r.
Proof.
  intros F E Sr. destruct (rf_ends _ _ _ F) as [W _]. unfold far. destruct (arch_mca T); apply ct1; right.
  - split; auto. split; [exact (write_solid _ _ W)|]. split; auto. exists b. left. auto.
  - split; eauto.
Qed.

(* ---- writes of the same thread that overwrite [w] ---- *)
Definition later (w w' : eid) : Prop := w' = w \/ clos_trans _ (coi G) w w'.
Lemma coi_po x y : clos_trans _ (coi G) x y -> po x y.
Proof.
  induction 1 as [x y [F (b & C)]|x y z _ [F1 L1] _ [F2 L2]]; [|split; [congruence|lia]]. apply (com_int _ _ X b); [right; left; exact C|]. intros E. exact (E F).
Qed.
Lemma later_po w w' : later w w' -> w' = w \/ po w w'.
Proof. intros [->|H]; [auto|right; now apply coi_po]. Qed.
Lemma later_trans x y z : later x y -> later y z -> later x z.
Proof. intros [->|H] [->|K]; unfold later; auto. right. eapply t_trans; eauto. Qed.
Lemma coi_w x y : clos_trans _ (coi G) x y -> is_w G y.
Proof. induction 1 as [x y [_ (b & C)]|]; [|auto]. destruct (co_wf _ Sa _ _ _ C) as [_ (v & A & W & _)]. exists v. auto. Qed.
Lemma later_w w w' : is_w G w -> later w w' -> is_w G w'.
Proof. intros W [->|H]; [auto|exact (coi_w _ _ H)]. Qed.
Lemma rmw_later x w w' : rmw_pair G x w -> later w w' -> tlo T G x w'.
Proof.
  intros R [->|H]; [now apply rmw_tlo|]. destruct (coi_po _ _ H) as [F _]. destruct (proj1 R). split; [congruence|]. right. exact (ll_rmw _ _ _ _ R H).
Qed.
(* a read-modify-write that takes its value from its own thread *)
Lemma own_step b w r1 w1 : g_rf G b w r1 -> ~ apart w r1 -> rmw_pair G r1 w1 -> writes_b G w1 b -> later w w1.
Proof.
  intros F E R W. right. apply ct1. destruct (com_int _ _ X b w r1 (or_introl F) E) as [Fp Lp]. destruct (rmw_po _ _ R) as [F1 L1].
  split; [congruence|]. exists b. destruct (rf_ends _ _ _ F) as [W0 R1]. apply (co_or T G X); auto.
  - intros ->. lia.
  - intros C. apply (com_po _ _ X b w1 w); [right; left; exact C|]. split; [congruence|lia].
Qed.
Lemma rseq_end P w w' : rseq G P w w' -> w' = w \/ exists r1, rmw_pair G r1 w' /\ P r1 w'.
Proof. induction 1 as [w|b w r1 w1 w' F R W Q H IH]; [auto|]. destruct IH as [->|IH]; eauto. Qed.
(* the sequence leaves the thread of [w] for good, or comes last into the thread of [w'] *)
Lemma rseq_path P w w' : rseq G P w w' ->
  exists w1, later w w1 /\ (w1 = w' \/ exists r1 w2, far w1 r1 /\ rmw_pair G r1 w2 /\ P r1 w2 /\ later w2 w').
Proof.
  induction 1 as [w|b w r1 w1 w' F R W Q H (w3 & L3 & IH)]; [exists w; split; [left|left]; reflexivity|].
  destruct (dec_apart w r1) as [E|E].
  - exists w. split; [left; reflexivity|right]. pose proof (far_rfe _ _ _ F E (rmw_solid _ _ R)) as Fa. destruct IH as [<-|(r' & w2 & F2 & IH)].
    + exists r1, w1. auto.
    + exists r', w2. split; [|exact IH]. apply (far_trans _ _ _ Fa). apply (far_trans _ w3); [|exact F2]. apply far_tlo. exact (rmw_later _ _ _ R L3).
  - exists w3. split; [|exact IH]. apply (later_trans _ w1); [|exact L3]. exact (own_step _ _ _ _ F E R W).
Qed.

(* machines that are not multi-copy atomic have fences only *)
Lemma nmca_plain : arch_mca T = false -> m_style M = SNone /\ forall a b, m_base M a b = false.
Proof. destruct T; cbn; try discriminate; auto. Qed.
Lemma headed_fence t q c r its k : arch_mca T = false -> call_at G t q c r its -> headed M its k ->
  exists v, at_ its k v /\ exists m, (m < k)%nat /\ fence_at M its m false (e_w v) /\ fence_at M its m true (e_w v).
Proof.
  intros N C (v & A & H). exists v. split; auto. destruct (nmca_plain N) as [P B]. destruct H as [H|[H|H]]; [| |exact H].
  - pose proof (ex_calls _ _ X _ _ _ _ _ C) as CI. clear C. destruct CI as [f os s0 its' sf r' _ _ _ _ _ _ Ru _ _]. rewrite (irun_plain _ _ _ _ P _ _ _ _ Ru _ _ A) in H. discriminate H.
  - rewrite !B in H. discriminate H.
Qed.
Lemma isync_arch f : m_isync M f = true -> arch_isync T = true.
Proof. destruct T; cbn; intros H; try discriminate H; auto; match type of H with context [if ?b then _ else _] => destruct b; discriminate H end. Qed.

(* [w] can stand for the write of the releasing call, the [q]-th piece of thread [t] *)
Definition rel_ok (t q : nat) (w : eid) : Prop :=
  fst w = t /\ (base G t q <= snd w)%nat /\ is_w G w /\ (forall d u, before G d t q -> ev_at G d u -> tlo T G d w) /\
  (arch_mca T = false -> forall d u, before G d t q -> ev_at G d u -> tfence T G d w).
(* [r] can stand for the read of the acquiring call *)
Definition acq_ok (t q : nat) (r : eid) : Prop :=
  fst r = t /\ (snd r < base G t (S q))%nat /\ (exists u, ev_at G r u) /\ forall e u, after G e t q -> ev_at G e u -> tlo T G r e.

Lemma lift_fenced t q c v its x d u ux m : call_at G t q c v its -> (m < length its)%nat -> (forall b, fence_at M its m b (e_w ux)) -> fst x = t -> (base G t q + m < snd x)%nat ->
  ev_at G x ux -> before G d t q -> ev_at G d u -> tfence T G d x.
Proof.
  intros C Lm Fe F S Ax [Fd Ld] D. destruct (seg_split _ _ _ _ C) as (pre & post & E & L & _). cbn [seg_its] in E. unfold tfence, ev_at in *. rewrite Fd, F in *. split; [reflexivity|].
  rewrite E in *. exists u, ux, (length pre + m)%nat. split; auto. split; auto. split; [lia|]. apply fence_ctx. apply Fe.
Qed.
Lemma rel_later t q c v its w w' : call_at G t q c v its -> releases (weff c) = true -> a_write G w t q its -> later w w' -> rel_ok t q w'.
Proof.
  intros C Rl (F & i & E & W) L. pose proof W as (vw & Aw & Ww). pose proof (lift_ev G _ _ _ _ _ _ _ _ C F E Aw) as Ew.
  assert (is_w G w') as (v' & A' & W') by (apply (later_w w); [exists vw; auto|exact L]).
  assert (fst w' = t /\ (snd w <= snd w')%nat) as [F' L'] by (destruct (later_po _ _ L) as [->|[Fp Lp]]; [auto|split; [congruence|lia]]).
  pose proof (o_rel _ _ _ _ _ _ _ (ord_of _ _ X _ _ _ _ _ C) Rl i W) as H. split; [exact F'|]. split; [lia|]. split; [exists v'; auto|]. split.
  - intros d u B D. destruct H as (v0 & A0 & H). unfold at_ in A0. rewrite Aw in A0. injection A0 as <-. rewrite Ww in H. destruct H as [H|[H|(m & Lm & F0 & F1)]].
    + destruct L as [->|L]; [exact (lift_headed T G _ _ _ _ _ w d u i C (ex_intro _ vw (conj Aw (or_introl H))) F E B D)|].
      destruct B as [Fd Ld]. split; [congruence|]. right. apply (ll_rel G d w' w u vw); auto. split; [congruence|lia].
    + destruct B as [Fd Ld]. split; [congruence|]. left. unfold ev_at in *. rewrite Fd in *. rewrite F' in A'. apply lo_base with u v'; auto; [lia|]. rewrite W'.
      apply andb_true_iff in H. destruct H, (e_w u); auto.
    + destruct (lift_fenced _ _ _ _ _ w' d u v' m C) as [Q1 Q2]; auto; [pose proof (at_lt _ _ _ Aw); lia| |lia|].
      * intros []; rewrite W'; auto.
      * split; [exact Q1|]. left. now apply lo_fence.
  - intros N d u B D. destruct (headed_fence _ _ _ _ _ _ N C H) as (v0 & A0 & m & Lm & F0 & F1). unfold at_ in A0. rewrite Aw in A0. injection A0 as <-. rewrite Ww in *.
    apply (lift_fenced _ _ _ _ _ w' d u v' m C); auto; [pose proof (at_lt _ _ _ Aw); lia| |lia]. intros []; rewrite W'; auto.
Qed.
Lemma call_range t q c v its i : call_at G t q c v its -> (i < length its)%nat -> (base G t q <= base G t q + i < base G t (S q))%nat.
Proof. intros C L. destruct (seg_split _ _ _ _ C) as (_ & _ & _ & _ & B). cbn [seg_its] in B. lia. Qed.
Lemma op_read_lt its i : op_read its i -> (i < length its)%nat.
Proof. intros [(k & (K & _) & R & _)|(_ & R & _)]; lia. Qed.

Lemma write_lt its i : is_write its i -> (i < length its)%nat.
Proof. intros (v & A & _). exact (at_lt _ _ _ A). Qed.

(* ---- the acquiring call ---- *)
Section A.
Context (t2 q2 : nat) (c2 : op) (r2 : rval) (its2 : list item) (C2 : call_at G t2 q2 c2 r2 its2) (N2 : is_store c2 = false) (r : eid) (Hr : the_read G r t2 q2 its2).
Lemma r_solid : solid G r.
Proof.
  destruct Hr as (F & i & E & R). destruct (read_solid _ _ _ _ _ (all_ord T) (ex_calls _ _ X _ _ _ _ _ C2) N2 R) as (v & A & H).
  exists v. split; [apply (lift_ev G _ _ _ _ _ _ i v C2); auto|]. right. destruct H as [H|(k & K)]; [left; auto|right]. exists (t2, base G t2 q2 + k)%nat.
  split; [exact F|]. destruct (seg_split _ _ _ _ C2) as (pre & post & E' & L & _). cbn [seg_its fst snd] in *. rewrite F, E, E', <- L.
  destruct K as (z & Z1 & Z2 & Z3 & Z4). exists z. split; [now apply nth_ctx|]. split; auto. split; auto. apply last_read_ctx; auto. apply Nat.lt_le_incl. exact (at_lt _ _ _ Z1).
Qed.
Lemma r_ev : exists v, ev_at G r v.
Proof. destruct r_solid as (v & A & _). eauto. Qed.
Context (Aq : acquires (eff c2 r2) = true).
Lemma acq_read : acq_ok t2 q2 r.
Proof.
  destruct Hr as (F & i & E & R). split; [exact F|]. split; [rewrite E; apply (call_range _ _ _ _ _ _ C2 (op_read_lt _ _ R))|]. split; [exact r_ev|]. intros e u B D.
  apply (lift_tailed T G _ _ _ _ _ _ e u i C2); auto. exact (o_acq _ _ _ _ _ _ _ (ord_of _ _ X _ _ _ _ _ C2) N2 Aq i R).
Qed.
(* the call takes its byte from a library read-modify-write [w'] of its own thread; [r1] is the read with which the release sequence came in *)
Lemma acq_own b w1 r1 w2 rl w' : g_rf G b w' r -> ~ apart w' r -> far w1 r1 -> rmw_pair G r1 w2 -> lib_rmw G r1 w2 -> later w2 w' -> rmw_pair G rl w' -> lib_rmw G rl w' ->
  exists r', (r' = r \/ before G r' t2 q2) /\ acq_ok t2 q2 r' /\ far w1 r'.
Proof.
  intros F E Fa R Li La Rl (t & q & c & v & its & C & N & _ & Hw'). destruct (com_int _ _ X b w' r (or_introl F) E) as [Fp Lp].
  pose proof Hr as (Fr & i & Ei & Ri). destruct Hw' as (Fw & k & Ek & Wk). assert (t = t2) as -> by congruence.
  pose proof (call_range _ _ _ _ _ _ C2 (op_read_lt _ _ Ri)) as Rr. assert (k < length its)%nat as Lk by apply Wk. pose proof (call_range _ _ _ _ _ _ C Lk) as Rw.
  assert (q < q2)%nat as Lq.
  { destruct (lt_eq_lt_dec q q2) as [[Q|Q]|Q]; [exact Q| |].
    - exfalso. subst q. unfold call_at in *. assert (its2 = its) as Eq by (rewrite C in C2; injection C2; auto). rewrite Eq in Ri. destruct (or_lt _ _ _ Ri Wk) as [Z _]. lia.
    - exfalso. pose proof (base_mono G t2 (S q2) q Q). lia. }
  assert (po r1 w') as [F1 L1] by (destruct (rmw_po _ _ R) as [Fq Lq'], (later_po _ _ La) as [->|[Fz Lz]]; split; try congruence; lia).
  assert (fst r1 = t2) as F1' by congruence. pose proof (base_mono G t2 (S q) q2 Lq) as Bq.
  assert (snd r1 < base G t2 q2)%nat as B1 by lia. destruct (rmw_read _ _ R) as (u1 & U1 & Wu1).
  pose proof (o_acq _ _ _ _ _ _ _ (ord_of _ _ X _ _ _ _ _ C2) N2 Aq i Ri) as (vr & Ar & H).
  assert (e_w vr = false) as Wr. { assert (is_read its2 i) as (z & Z1 & Z2) by (destruct Ri as [(kk & _ & _ & Q & _)|(_ & _ & Q & _)]; exact Q). unfold at_ in *. congruence. }
  pose proof (base_mono G t2 q2 (S q2) ltac:(lia)) as B2.
  assert ((forall e u, after G e t2 q2 -> ev_at G e u -> tlo T G r1 e) -> exists r', (r' = r \/ before G r' t2 q2) /\ acq_ok t2 q2 r' /\ far w1 r') as K.
  { intros K. exists r1. split; [right; split; auto|]. split; [|exact Fa]. split; [exact F1'|]. split; [lia|]. split; [eauto|exact K]. }
  destruct H as [H|[H|[(m & Lm & F0 & F1x)|(m & n & f & Lm & Ct & Fi & Is)]]].
  - exists r. split; [auto|]. split; [exact acq_read|]. apply (far_trans _ _ _ Fa). apply (far_trans _ w'); apply far_tlo; [exact (rmw_later _ _ _ R La)|].
    split; [exact Fp|]. right. apply (ll_acq G w' r b rl vr); auto. exact (lift_ev G _ _ _ _ _ _ _ _ C2 Fr Ei Ar).
  - apply K. intros e u [Fe Le] U. split; [congruence|]. left. unfold ev_at in *. rewrite F1' in *. rewrite Fe in U. apply lo_base with u1 u; auto; [lia|]. rewrite Wu1. rewrite Wr in H.
    apply andb_true_iff in H. destruct H, (e_w u); auto.
  - apply K. intros e u [Fe Le] U. split; [congruence|]. left. apply lo_fence. rewrite Wr in *. destruct (seg_split _ _ _ _ C2) as (pre & post & Es & Lpr & Lb). cbn [seg_its] in *.
    unfold ev_at in *. rewrite F1' in *. rewrite Fe in U. assert (m < length its2)%nat by (apply nth_error_Some; destruct F0 as [(f & -> & _)| ->]; discriminate).
    exists u1, u, (base G t2 q2 + m)%nat. split; [exact U1|]. split; [exact U|]. split; [lia|]. rewrite Es, <- Lpr, Wu1. apply fence_ctx. now destruct (e_w u).
  - apply K. intros e u [Fe Le] U. split; [congruence|]. left. apply lo_ctl. unfold ev_at in *. rewrite F1' in *. rewrite Fe in U. split; [eauto|].
    destruct Li as (t & q0 & c0 & v0 & its0 & C0 & N0 & (Fr1 & j & Ej & Rj) & (Fw2 & kk & Ekk & Wkk)). assert (t = t2) as -> by congruence.
    pose proof (call_range _ _ _ _ _ _ C0 (op_read_lt _ _ Rj)) as Rg. assert (q0 < q2)%nat as L0.
    { destruct (Nat.lt_ge_cases q0 q2) as [Q|Q]; [exact Q|]. pose proof (base_mono G t2 q2 q0 Q). lia. }
    destruct (o_ctl _ _ _ _ _ _ _ (ord_of _ _ X _ _ _ _ _ C0) (isync_arch f Is) N0 (ex_intro _ kk Wkk) j Rj) as (k0 & K0).
    assert (k0 < length its0)%nat as Lk0 by (apply nth_error_Some; rewrite (proj1 K0); discriminate). pose proof (call_range _ _ _ _ _ _ C0 Lk0) as Rk.
    pose proof (base_mono G t2 (S q0) q2 L0). assert (n < length its2)%nat as Ln by (apply nth_error_Some; congruence). pose proof (call_range _ _ _ _ _ _ C2 Ln) as Rn.
    exists (base G t2 q0 + k0)%nat, (base G t2 q2 + n)%nat, f. split; [lia|]. split; [|split; [|exact Is]].
    + destruct (seg_split _ _ _ _ C0) as (pre & post & Es & Lpr & _). cbn [seg_its] in *. rewrite Es, <- Lpr, Ej, <- Lpr. now apply ctl_ctx.
    + destruct (seg_split _ _ _ _ C2) as (pre & post & Es & Lpr & _). cbn [seg_its] in *. rewrite Es, <- Lpr. now apply nth_ctx.
Qed.
(* the handing over is internal to a thread, or a chain in the order the machine keeps to *)
Lemma sync_cases w : synchronizes G w r -> exists w' r', later w w' /\ (r' = r \/ before G r' t2 q2) /\ acq_ok t2 q2 r' /\ (po w' r' \/ far w' r').
Proof.
  assert (forall P b w', rseq G P w w' -> g_rf G b w' r -> apart w' r -> exists w1, later w w1 /\ far w1 r) as K.
  { intros P b w' H F E. pose proof (far_rfe _ _ _ F E r_solid) as Fa. destruct (rseq_path _ _ _ H) as (w1 & L & [<-|(r1 & w2 & F1 & R & _ & La)]); exists w1; split; auto.
    apply (far_trans _ _ _ F1). apply (far_trans _ w'); [|exact Fa]. apply far_tlo. exact (rmw_later _ _ _ R La). }
  intros [(b & w' & H & F)|(b & w' & H & F & E)].
  - destruct (dec_apart w' r) as [E|E].
    + destruct (K _ _ _ H F E) as (w1 & L & Fa). exists w1, r. split; [exact L|]. split; [auto|]. split; [exact acq_read|auto].
    + destruct (rseq_path _ _ _ H) as (w1 & L & [<-|(r1 & w2 & F1 & R & Li & La)]).
      * exists w1, r. split; [exact L|]. split; [auto|]. split; [exact acq_read|]. left. exact (com_int _ _ X b w1 r (or_introl F) E).
      * destruct (rseq_end _ _ _ H) as [->|(rl & Rl & Ll)].
        -- exists w, r. split; [left; reflexivity|]. split; [auto|]. split; [exact acq_read|]. left. exact (com_int _ _ X b w r (or_introl F) E).
        -- destruct (acq_own b w1 r1 w2 rl w' F E F1 R Li La Rl Ll) as (r' & Q1 & Q2 & Q3). exists w1, r'. auto.
  - destruct (K _ _ _ H F E) as (w1 & L & Fa). exists w1, r. split; [exact L|]. split; [auto|]. split; [exact acq_read|auto].
Qed.
End A.

(* ---- the situation of C28: [d] before a releasing call with write [w], [r] the read of an acquiring call before [e] ---- *)
Context (t1 q1 t2 q2 : nat) (w r : eid) (Hw : rel_ok t1 q1 w) (Hr : acq_ok t2 q2 r) (Sy : po w r \/ far w r).

Lemma rel_lo d u : before G d t1 q1 -> ev_at G d u -> tlo T G d w.
Proof. destruct Hw as (_ & _ & _ & H & _). eauto. Qed.
Lemma rel_fence d u : arch_mca T = false -> before G d t1 q1 -> ev_at G d u -> tfence T G d w.
Proof. destruct Hw as (_ & _ & _ & _ & H). eauto. Qed.
Lemma acq_lo e u : after G e t2 q2 -> ev_at G e u -> tlo T G r e.
Proof. destruct Hr as (_ & _ & _ & H). eauto. Qed.
Lemma w_ev : exists v, ev_at G w v /\ e_w v = true.
Proof. destruct Hw as (_ & _ & H & _). exact H. Qed.
(* if [d] and [e] are in one thread, [d] comes first *)
Lemma ordered_before d e : before G d t1 q1 -> after G e t2 q2 -> fst d <> fst e \/ po d e.
Proof.
  intros [Fd Ld] [Fe Le]. destruct (Nat.eq_dec (fst d) (fst e)) as [E|E]; [|auto]. right. split; auto.
  destruct (Nat.lt_ge_cases (snd d) (snd e)) as [L|L]; [auto|exfalso].
  assert (t1 = t2) as Et by congruence. destruct Hw as (Fw & Lw & _), Hr as (Fr & Lr & (u & A) & _). rewrite <- Et in Le, Lr, Fr.
  destruct Sy as [[_ P]|H]; [lia|].
  assert (tlo T G r w) as O. { apply (rel_lo r u); auto. split; auto. lia. }
  destruct (arch_mca T) eqn:Mc.
  - pose proof (ex_mm _ _ X) as Y. rewrite Mc in Y. apply (Y w). apply t_trans with r; [exact (far_ob _ _ Mc H)|apply ct1; left; auto].
  - pose proof (ex_mm _ _ X) as Y. rewrite Mc in Y. apply (hb_acyclic _ _ Y w). apply t_trans with r; [exact (far_hb _ _ Mc H)|apply ct1; left; auto].
Qed.
Lemma po_before d e : po w r -> before G d t1 q1 -> after G e t2 q2 -> po d e.
Proof.
  intros [F P] B A. destruct (ordered_before d e B A) as [E|E]; [|auto]. exfalso. apply E. destruct B as [Fd _], A as [Fe _], Hw as [Fw _], Hr as [Fr _]. congruence.
Qed.

(* no communication goes backwards from [e] to [d] ... *)
Theorem no_back b d e u v : before G d t1 q1 -> after G e t2 q2 -> ev_at G d u -> ev_at G e v -> solid G d -> solid G e -> ~ com G b e d.
Proof.
  intros Bd Ae Ed Ee Sd Se Cm. destruct (ordered_before d e Bd Ae) as [D|P]; [|exact (com_po _ _ X _ _ _ Cm P)].
  destruct Sy as [P|H]; [apply D; exact (proj1 (po_before d e P Bd Ae))|].
  pose proof (rel_lo d u Bd Ed) as L1. pose proof (acq_lo e v Ae Ee) as L2.
  assert (apart e d) as Ex by (unfold apart; congruence).
  pose proof (ex_mm _ _ X) as Y. destruct (arch_mca T) eqn:Mc.
  - apply (Y d). apply t_trans with w; [apply ct1; left; auto|]. apply t_trans with r; [exact (far_ob _ _ Mc H)|].
    apply t_trans with e; [apply ct1; left; auto|]. apply ct1. right. split; [exact Ex|]. split; auto. split; auto. eauto.
  - assert (clos_refl_trans _ (hb T G) w e) as HB.
    { apply rt_trans with r; [|apply rt_step; left; auto].
      pose proof (far_hb _ _ Mc H) as Q. clear - Q. induction Q; [apply rt_step; auto|eapply rt_trans; eauto]. }
    destruct w_ev as (vw & Aw & Ww).
    assert (is_w G d -> prop T G d w) as Pr.
    { intros W. left. split; [|split; [auto|exists vw; auto]]. exists w. split; [left; exact (rel_fence d u Mc Bd Ed)|apply rt_refl]. }
    destruct Cm as [F|[O|F]].
    + apply (hb_acyclic _ _ Y e). apply t_trans with d; [apply ct1; right; split; eauto|]. apply t_trans with w; [apply ct1; left; auto|].
      apply t_trans with r; [exact (far_hb _ _ Mc H)|apply ct1; left; auto].
    + destruct (co_wf _ Sa _ _ _ O) as [(v1 & V1 & V2 & _) (v2 & V3 & V4 & _)].
      apply (propagation _ _ Y e). apply t_trans with d; [apply ct1; left; exists b; auto|]. apply ct1. right. left.
      split; [|split; [exists v2; auto|exists v1; auto]]. exists w. split; [left; exact (rel_fence d u Mc Bd Ed)|exact HB].
    + destruct F as (R1 & (v2 & V3 & V4 & V5) & R3). apply (observation _ _ Y e). exists d. split; [split; [exact Ex|exists b; split; auto; split; auto; exists v2; auto]|].
      exists w. split; [apply Pr; exists v2; auto|exact HB].
Qed.
(* ... nor from [e] to the write [d] has read *)
Theorem no_back_read b d e w0 u v : before G d t1 q1 -> after G e t2 q2 -> ev_at G d u -> ev_at G e v -> solid G d -> solid G e ->
  g_rf G b w0 d -> ~ fr G b e w0 /\ ~ g_co G b e w0.
Proof.
  intros Bd Ae Ed Ee Sd Se F. enough (~ (fr G b e w0 \/ g_co G b e w0)) by tauto. intros Cm.
  assert (com G b e w0) as Cm' by (destruct Cm; [right; right|right; left]; auto).
  destruct (rf_ends _ _ _ F) as [W0 Rd]. pose proof (com_acc _ _ X _ _ _ Cm') as [Aece _].
  assert (acc_b G d b) as Ad by (destruct Rd as (z & ? & ? & ?); exists z; auto).
  assert (po d e -> False) as NP.
  { intros P. apply (coherent _ Sa b d). apply t_trans with e; [apply ct1; left; split; auto|]. apply t_trans with w0; [apply ct1; right; auto|apply ct1; right; left; auto]. }
  destruct (ordered_before d e Bd Ae) as [D|P]; [|exact (NP P)].
  destruct Sy as [P|H]; [apply D; exact (proj1 (po_before d e P Bd Ae))|].
  destruct W0 as (v0 & A0 & W0 & K0).
  pose proof (rel_lo d u Bd Ed) as L1. pose proof (acq_lo e v Ae Ee) as L2.
  (* [w0] is a write of another thread, or one that comes before [d] *)
  assert (apart w0 d \/ before G w0 t1 q1) as [E0|B0].
  { destruct (dec_apart w0 d) as [E|E]; [auto|right]. destruct (com_int _ _ X b w0 d) as [Fp Lp]; [left; auto|auto|]. destruct Bd as [Fd Ld]. split; [congruence|lia]. }
  all: destruct (dec_apart e w0) as [Ee0|Ei].
  (* if [e] and [w0] are in one thread, [w0] comes after [e] *)
  2:{ pose proof (com_int _ _ X _ _ _ Cm' Ei) as [Fp Lp]. destruct Ae as [Fe Le].
      assert (tlo T G r w0) as L3 by (apply (acq_lo w0 v0); [split; [congruence|lia]|exact A0]).
      pose proof (ex_mm _ _ X) as Y. destruct (arch_mca T) eqn:Mc.
      - apply (Y d). apply t_trans with w; [apply ct1; left; auto|]. apply t_trans with r; [exact (far_ob _ _ Mc H)|].
        apply t_trans with w0; [apply ct1; left; auto|]. apply ct1. right. split; [exact E0|]. split; [exists v0; auto|]. split; [exact Sd|]. exists b. left. exact F.
      - apply (hb_acyclic _ _ Y d). apply t_trans with w; [apply ct1; left; auto|]. apply t_trans with r; [exact (far_hb _ _ Mc H)|].
        apply t_trans with w0; [apply ct1; left; auto|]. apply ct1. right. split; eauto. }
  3:{ destruct (com_int _ _ X _ _ _ Cm' Ei) as [Fp Lp]. destruct Bd as [Fd Ld], B0 as [Fb Lb]. congruence. }
  all: pose proof (ex_mm _ _ X) as Y; destruct (arch_mca T) eqn:Mc.
  - apply (Y d). apply t_trans with w; [apply ct1; left; auto|]. apply t_trans with r; [exact (far_ob _ _ Mc H)|].
    apply t_trans with e; [apply ct1; left; auto|]. apply t_trans with w0.
    + apply ct1. right. split; [exact Ee0|]. split; auto. split; [exists v0; auto|eauto].
    + apply ct1. right. split; [exact E0|]. split; [exists v0; auto|]. split; [exact Sd|]. exists b. left. exact F.
  - assert (clos_refl_trans _ (hb T G) w e) as HB.
    { apply rt_trans with r; [|apply rt_step; left; auto]. pose proof (far_hb _ _ Mc H) as Q. clear - Q. induction Q; [apply rt_step; auto|eapply rt_trans; eauto]. }
    destruct w_ev as (vw & Aw & Ww). assert (prop_base T G w0 w) as Pb.
    { exists w. split; [right; exists d; split; [split; eauto|exact (rel_fence d u Mc Bd Ed)]|apply rt_refl]. }
    destruct Cm as [Cm|Cm].
    + apply (observation _ _ Y e). exists w0. split; [split; eauto|]. exists w. split; [|exact HB]. left. split; [exact Pb|]. split; [exists v0; auto|exists vw; auto].
    + apply (propagation _ _ Y e). destruct (co_wf _ Sa _ _ _ Cm) as [(v1 & V1 & V2 & _) _]. apply t_trans with w0; [apply ct1; left; exists b; auto|]. apply ct1. right. left.
      split; [|split; [exists v0; auto|exists v1; auto]]. destruct Pb as (y & Py & Hy). exists y. split; auto. eapply rt_trans; eauto.
  - apply (Y w0). apply t_trans with w; [apply ct1; left; exact (rel_lo w0 v0 B0 A0)|]. apply t_trans with r; [exact (far_ob _ _ Mc H)|].
    apply t_trans with e; [apply ct1; left; auto|]. apply ct1. right. split; [exact Ee0|]. split; auto. split; [exists v0; auto|eauto].
  - assert (clos_refl_trans _ (hb T G) w e) as HB.
    { apply rt_trans with r; [|apply rt_step; left; auto]. pose proof (far_hb _ _ Mc H) as Q. clear - Q. induction Q; [apply rt_step; auto|eapply rt_trans; eauto]. }
    destruct w_ev as (vw & Aw & Ww). assert (prop_base T G w0 w) as Pb.
    { exists w. split; [left; exact (rel_fence w0 v0 Mc B0 A0)|apply rt_refl]. }
    destruct Cm as [Cm|Cm].
    + apply (observation _ _ Y e). exists w0. split; [split; eauto|]. exists w. split; [|exact HB]. left. split; [exact Pb|]. split; [exists v0; auto|exists vw; auto].
    + apply (propagation _ _ Y e). destruct (co_wf _ Sa _ _ _ Cm) as [(v1 & V1 & V2 & _) _]. apply t_trans with w0; [apply ct1; left; exists b; auto|]. apply ct1. right. left.
      split; [|split; [exists v0; auto|exists v1; auto]]. destruct Pb as (y & Py & Hy). exists y. split; auto. eapply rt_trans; eauto.
Qed.
End P.
