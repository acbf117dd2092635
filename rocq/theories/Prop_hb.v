(* C37: happens-before.  The order that Rust's memory model builds from program order and release/acquire pairs, over any number of threads, is
   respected by all communication through memory. *)
From Verif Require Import SeqCst Prop_order Replay Prop_sc CallLink All_atomic.
From Coq Require Import Relations.Operators_Properties.

(* ---- specification ---- *)
(* the [q1]-th piece of thread [t1] is a releasing call; the [q2]-th piece of thread [t2] is an acquiring call that takes a byte from the
   release sequence of its write (Rust: "synchronizes with") *)
Definition syncs (G : graph) (p1 p2 : nat * nat) : Prop := exists c1 r1 its1 c2 r2 its2 w r,
  call_at G (fst p1) (snd p1) c1 r1 its1 /\ releases (weff c1) = true /\ a_write G w (fst p1) (snd p1) its1 /\
  call_at G (fst p2) (snd p2) c2 r2 its2 /\ is_store c2 = false /\ acquires (eff c2 r2) = true /\ the_read G r (fst p2) (snd p2) its2 /\
  synchronizes G w r.
(* one after the other, each releasing call being the last acquiring one (an AcqRel read-modify-write) or a later call of its thread *)
Inductive reaches (G : graph) : nat * nat -> nat * nat -> Prop :=
| re_one p1 p2 : syncs G p1 p2 -> reaches G p1 p2
| re_more p1 t q q' p2 : syncs G p1 (t, q) -> (q <= q')%nat -> reaches G (t, q') p2 -> reaches G p1 p2.
(* access [d] happens before access [e] *)
Definition happens_before (G : graph) (d e : eid) : Prop :=
  po d e \/ exists t1 q1 t2 q2, before G d t1 q1 /\ reaches G (t1, q1) (t2, q2) /\ after G e t2 q2.

Section P.
Context (T : arch) (G : graph) (Ie : t_ie T = None) (W : t_wf T) (X : execution T G).
Notation Sa := (ex_sane T G X).
Notation M := (arch_mm T).
(* a chain that stays in one thread, or one in the order the machine keeps to *)
Definition ends (q1 q2 t1 t2 : nat) (w r : eid) : Prop := exists q1' q2' c1 r1 its1 c2 r2 its2 w0 r0,
  (q1 <= q1')%nat /\ (q2' <= q2)%nat /\ call_at G t1 q1' c1 r1 its1 /\ releases (weff c1) = true /\ a_write G w0 t1 q1' its1 /\ later G w0 w /\
  call_at G t2 q2' c2 r2 its2 /\ is_store c2 = false /\ the_read G r0 t2 q2' its2 /\ (r = r0 \/ before G r t2 q2') /\ acq_ok T G t2 q2' r.
Lemma lo_fwd M L i j : lo M L i j -> (i < j)%nat.
Proof.
  intros [v w|v w|v w|v w|(v & w & k & _ & _ & ? & _)|(_ & k & m & f & ? & (_ & ? & _) & _)|(w & _ & _ & _ & ? & _)]; auto; lia.
Qed.
Lemma tlo_fwd x y : tlo T G x y -> po x y.
Proof.
  intros [F [H|H]]; split; auto; [exact (lo_fwd _ _ _ _ H)|]. destruct H as [w u v [E L] _ _ _ _ Q|w [E (z & _ & _ & _ & L & _)] Q|b r v _ R _ _].
  - destruct (coi_po T G X _ _ Q). lia.
  - destruct (coi_po T G X _ _ Q). lia.
  - apply (com_int _ _ X b); [left; exact R|]. intros E. exact (E F).
Qed.
(* the read and the write of an AcqRel read-modify-write *)
Lemma same_call t q c r its x y y' : call_at G t q c r its -> is_store c = false -> the_read G x t q its -> a_write G y t q its -> later G y y' -> tlo T G x y'.
Proof.
  intros C N (Fx & i & Ei & Ri) (Fy & k & Ek & Wk) La. pose proof (ex_calls T G X _ _ _ _ _ C) as Ci.
  destruct (call_fact T c its r (smp_ie T Ie) W Ci) as (m & m' & _ & _ & [_ [(_ & Nw & _)|(k' & v & Ow & _ & Un & _)]]); [destruct (Nw k Wk)|].
  rewrite (Un k Wk) in *. pose proof (pair_linked T G X _ _ _ _ _ _ _ C N Ri Ow) as Lk. destruct La as [->|La]; [exact (linked_tlo T G _ _ _ _ _ _ _ _ _ C Lk Fx Fy Ei Ek)|].
  destruct (seg_split _ _ _ _ C) as (pre & post & E & Lp & _). cbn [seg_its] in E. destruct Lk as (_ & [(z & Z1 & Z2 & Z3 & Z4)|D]).
  - apply (rmw_later T G X x y y'); [|right; exact La]. split; [congruence|]. rewrite Fx, Ei, Ek, E, <- Lp. exists z. split; [now apply nth_ctx|]. split; auto. split; auto.
    apply last_read_ctx; auto. apply Nat.lt_le_incl. exact (at_lt _ _ _ Z1).
  - destruct (coi_po T G X _ _ La) as [Fp Lpo], (coi_w T G X _ _ La) as (vy & Vy & Wy). split; [congruence|]. left.
    assert (exists u, at_ its i u /\ e_w u = false) as (u & Au & Wu) by (destruct Ri as [(kk & _ & _ & Q & _)|(_ & _ & Q & _)]; exact Q).
    pose proof (lift_ev G _ _ _ _ _ _ _ _ C Fx Ei Au) as Ex. pose proof (proj1 (or_lt _ _ _ Ri Ow)). unfold ev_at in *. assert (fst y' = fst x) as Fy' by congruence. rewrite Fy' in Vy.
    apply lo_base with u vy; auto; [lia|]. now rewrite Wu, Wy.
Qed.
Lemma sync_pos p1 p2 : syncs G p1 p2 -> (fst p1 = fst p2 /\ (snd p1 < snd p2)%nat) \/ exists w r, ends (snd p1) (snd p2) (fst p1) (fst p2) w r /\ far T G w r.
Proof.
  destruct p1 as [t1 q1], p2 as [t2 q2]. intros (c1 & r1 & its1 & c2 & r2 & its2 & w & r & C1 & Rl & Hw & C2 & N & Aq & Hr & Sy). cbn [fst snd] in *.
  destruct (sync_cases T G X _ _ _ _ _ C2 N r Hr Aq w Sy) as (w' & r' & La & Qr & Aok & [[F L]|H]).
  - left. destruct (rel_later T G X _ _ _ _ _ _ _ C1 Rl Hw La) as (Fw & Lw & _ & Rlo & _), Aok as (Fr & Lr & (u & U) & _). assert (t2 = t1) as -> by congruence. split; [reflexivity|].
    destruct (Nat.lt_trichotomy q1 q2) as [Q|[<-|Q]]; [exact Q| |exfalso; pose proof (base_mono G t1 (S q2) q1 Q); lia]. exfalso.
    unfold call_at in *. assert (c2 = c1 /\ r2 = r1 /\ its2 = its1) as (-> & -> & ->) by (rewrite C1 in C2; injection C2; auto).
    assert (tlo T G r' w') as O by (destruct Qr as [->|B]; [exact (same_call _ _ _ _ _ _ _ _ C1 N Hr Hw La)|exact (Rlo r' u B U)]).
    destruct (tlo_fwd _ _ O), F as []. lia.
  - right. exists w', r'. split; [|exact H]. exists q1, q2, c1, r1, its1, c2, r2, its2, w, r. auto 15.
Qed.
Lemma reach_pos p1 p2 : reaches G p1 p2 -> (fst p1 = fst p2 /\ (snd p1 < snd p2)%nat) \/ exists w r, ends (snd p1) (snd p2) (fst p1) (fst p2) w r /\ far T G w r.
Proof.
  induction 1 as [p1 p2 H|p1 t q q' p2 H L R IH]; [now apply sync_pos|]. apply sync_pos in H. destruct p1 as [t1 q1], p2 as [t2 q2]. cbn [fst snd] in *.
  destruct H as [[-> L1]|(w & r & E & F)].
  - destruct IH as [[-> L2]|(w & r & E & F)]; [left; split; [reflexivity|lia]|right]. exists w, r. split; [|exact F].
    destruct E as (q1' & q2' & c1 & r1 & its1 & c2 & r2 & its2 & w0 & r0 & Q1 & Q2 & E). exists q1', q2', c1, r1, its1, c2, r2, its2, w0, r0. split; [lia|]. split; [lia|exact E].
  - right. destruct E as (q1' & qm & c1 & r1 & its1 & cm & rm & itsm & w0 & r0 & Q1 & Q2 & C1 & Rl & Hw & La & Cm & Nm & Hr & Qr & Am). destruct IH as [[-> L2]|(w3 & r4 & E & F2)].
    + exists w, r. split; [|exact F]. exists q1', qm, c1, r1, its1, cm, rm, itsm, w0, r0. split; [exact Q1|]. split; [lia|]. auto 12.
    + destruct E as (q3 & q4 & c3 & r3 & its3 & c4 & r4' & its4 & w30 & r40 & Q3 & Q4 & C3 & Rl3 & Hw3 & La3 & C4 & N4 & Hr4 & Qr4 & A4).
      exists w, r4. split; [exists q1', q4, c1, r1, its1, c4, r4', its4, w0, r40; auto 15|]. apply (far_trans T G w r r4 F). apply (far_trans T G r w3 r4); [|exact F2]. apply far_tlo.
      destruct (rel_later T G X _ _ _ _ _ _ _ C3 Rl3 Hw3 La3) as (_ & _ & _ & Rlo & _). destruct Am as (Fr & Lr & (u & U) & _).
      assert (before G r t q3 -> tlo T G r w3) as Kb by (intros B; exact (Rlo r u B U)). destruct (Nat.eq_dec qm q3) as [<-|Ne].
      * destruct Qr as [->|B]; [|exact (Kb B)].
        unfold call_at in *. assert (cm = c3 /\ rm = r3 /\ itsm = its3) as (<- & <- & <-) by (rewrite Cm in C3; injection C3; auto). exact (same_call _ _ _ _ _ _ _ _ Cm Nm Hr Hw3 La3).
      * apply Kb. split; [exact Fr|]. pose proof (base_mono G t (S qm) q3 ltac:(lia)). lia.
Qed.
(* it does not lead back *)
Lemma reach_irr t q1 q2 : reaches G (t, q1) (t, q2) -> (q1 < q2)%nat.
Proof.
  intros R. destruct (reach_pos _ _ R) as [[_ L]|(w & r & E & Fa)]; [exact L|]. cbn [fst snd] in *. destruct (Nat.lt_ge_cases q1 q2) as [L|L]; [exact L|exfalso].
  destruct E as (q3 & q4 & c3 & r3 & its3 & c4 & r4 & its4 & w3 & r0 & Q3 & Q4 & C3 & Rl3 & Hw3 & La3 & C4 & N4 & Hr4 & Qr4 & A4).
  destruct (rel_later T G X _ _ _ _ _ _ _ C3 Rl3 Hw3 La3) as (_ & _ & _ & Rlo & _). destruct A4 as (Fr & Lr & (u & U) & _).
  assert (tlo T G r w) as O.
  { assert (before G r t q3 -> tlo T G r w) as Kb by (intros B; exact (Rlo r u B U)). destruct (Nat.eq_dec q4 q3) as [->|Ne].
    - destruct Qr4 as [->|B]; [|exact (Kb B)]. unfold call_at in *. assert (c4 = c3 /\ r4 = r3 /\ its4 = its3) as (-> & -> & ->) by (rewrite C3 in C4; injection C4; auto).
      exact (same_call _ _ _ _ _ _ _ _ C3 N4 Hr4 Hw3 La3).
    - apply Kb. split; [exact Fr|]. pose proof (base_mono G t (S q4) q3 ltac:(lia)). lia. }
  destruct (arch_mca T) eqn:Mc.
  - pose proof (ex_mm _ _ X) as Y. rewrite Mc in Y. apply (Y w). apply t_trans with r; [exact (far_ob T G _ _ Mc Fa)|apply ct1; left; auto].
  - pose proof (ex_mm _ _ X) as Y. rewrite Mc in Y. apply (hb_acyclic _ _ Y w). apply t_trans with r; [exact (far_hb T G _ _ Mc Fa)|apply ct1; left; auto].
Qed.
Lemma before_later d t q q' : before G d t q -> (q <= q')%nat -> before G d t q'.
Proof. intros [F L] Q. split; [exact F|]. pose proof (base_mono G t q q' Q). lia. Qed.
Lemma after_earlier d t q q' : after G d t q -> (q' <= q)%nat -> after G d t q'.
Proof. intros [F L] Q. split; [exact F|]. pose proof (base_mono G t (S q') (S q) ltac:(lia)). lia. Qed.
Lemma hb_cases d e : happens_before G d e -> po d e \/ exists t1 q1 t2 q2 w r,
  rel_ok T G t1 q1 w /\ before G d t1 q1 /\ acq_ok T G t2 q2 r /\ after G e t2 q2 /\ far T G w r.
Proof.
  intros [P|(t1 & q1 & t2 & q2 & B & R & A)]; [auto|]. destruct (reach_pos _ _ R) as [[E L]|(w & r & E & F)]; cbn [fst snd] in *.
  - left. destruct B as [Fd Ld], A as [Fe Le]. split; [congruence|]. rewrite <- E in Le. pose proof (base_mono G t1 q1 (S q2) ltac:(lia)). lia.
  - right. destruct E as (q1' & q2' & c1 & r1 & its1 & c2 & r2 & its2 & w0 & r0 & Q1 & Q2 & C1 & Rl & Hw & La & C2 & N & Hr & Qr & Aq).
    exists t1, q1', t2, q2', w, r. split; [exact (rel_later T G X _ _ _ _ _ _ _ C1 Rl Hw La)|]. split; [exact (before_later _ _ _ _ B Q1)|].
    split; [exact Aq|]. split; [exact (after_earlier _ _ _ _ A Q2)|exact F].
Qed.
Lemma hb_apart d e u v : happens_before G d e -> ev_at G d u -> ev_at G e v -> d <> e.
Proof.
  intros H U V ->. destruct (hb_cases _ _ H) as [[_ P]|(t1 & q1 & t2 & q2 & w & r & Hw & B & Hr & A & F)]; [lia|].
  destruct (ordered_before T G X _ _ _ _ w r Hw Hr (or_intror F) e e B A) as [Q|[_ Q]]; [congruence|lia].
Qed.
Lemma hb_no_back b d e u v : happens_before G d e -> ev_at G d u -> ev_at G e v -> solid G d -> solid G e -> ~ com G b e d.
Proof.
  intros H U V Sd Se. destruct (hb_cases _ _ H) as [P|(t1 & q1 & t2 & q2 & w & r & Hw & B & Hr & A & F)].
  - intros C. exact (com_po _ _ X _ _ _ C P).
  - exact (no_back T G X _ _ _ _ w r Hw Hr (or_intror F) b d e u v B A U V Sd Se).
Qed.
Lemma hb_no_back_read b d e w0 u v : happens_before G d e -> ev_at G d u -> ev_at G e v -> solid G d -> solid G e -> g_rf G b w0 d -> ~ fr G b e w0 /\ ~ g_co G b e w0.
Proof.
  intros H U V Sd Se R. destruct (hb_cases _ _ H) as [P|(t1 & q1 & t2 & q2 & w & r & Hw & B & Hr & A & F)].
  - assert (forall k, com G b k w0 -> k = e -> False) as K.
    { intros k C ->. destruct (rf_ends T G X _ _ _ R) as [_ (z & Z1 & _ & Z2)]. destruct (com_acc _ _ X _ _ _ C) as [Ae _].
      apply (coherent _ Sa b d). apply t_trans with e; [apply ct1; left; split; [exact P|split; [exists z; auto|exact Ae]]|]. apply t_trans with w0; apply ct1; right; [exact C|left; exact R]. }
    split; intros Q; apply (K e); auto; [right; right; exact Q|right; left; exact Q].
  - exact (no_back_read T G X _ _ _ _ w r Hw Hr (or_intror F) b d e w0 u v B A U V Sd Se R).
Qed.
End P.

(* ---- theorems ---- *)
Section C37.
Context (T : arch) (G : graph) (Ie : t_ie T = None) (W : t_wf T) (X : execution T G) (d e : eid) (b : Z) (H : happens_before G d e) (Sd : solid G d) (Se : solid G e).
(* a read sees the last write that happens before it, or a later one *)
Theorem C37_write_read : writes_b G d b -> reads_b G e b -> exists w, g_rf G b w e /\ (w = d \/ g_co G b d w).
Proof.
  intros Wd Re. apply (sees T G X); auto. intros F. destruct Wd as (u & U & _), Re as (v & V & _).
  apply (hb_no_back T G Ie W X b d e u v H U V Sd Se). right. right. exact F.
Qed.
Theorem C37_write_write : writes_b G d b -> writes_b G e b -> g_co G b d e.
Proof.
  intros Wd We. pose proof Wd as (u & U & _). pose proof We as (v & V & _). apply (co_or T G X); auto; [intros Q; exact (hb_apart T G Ie W X d e u v H U V (eq_sym Q))|].
  intros F. apply (hb_no_back T G Ie W X b d e u v H U V Sd Se). right. left. exact F.
Qed.
Theorem C37_read_read w0 : g_rf G b w0 d -> reads_b G e b -> exists w, g_rf G b w e /\ (w = w0 \/ g_co G b w0 w).
Proof.
  intros F Re. destruct (rf_ends T G X _ _ _ F) as [W0 (u & U & _)]. pose proof Re as (v & V & _). apply (sees T G X); auto.
  exact (proj1 (hb_no_back_read T G Ie W X b d e w0 u v H U V Sd Se F)).
Qed.
(* a read does not see a write that happens after it, nor anything later *)
Theorem C37_read_write w0 : g_rf G b w0 d -> writes_b G e b -> w0 <> e /\ g_co G b w0 e.
Proof.
  intros F We. destruct (rf_ends T G X _ _ _ F) as [W0 (u & U & _)]. pose proof We as (v & V & _).
  assert (w0 <> e) as Ne. { intros ->. apply (hb_no_back T G Ie W X b d e u v H U V Sd Se). left. exact F. }
  split; auto. apply (co_or T G X); auto. exact (proj2 (hb_no_back_read T G Ie W X b d e w0 u v H U V Sd Se F)).
Qed.
(* the value *)
Theorem C37_message u v : ev_at G d u -> e_w u = true -> covers u b -> ev_at G e v -> e_w v = false -> covers v b -> (forall w, ~ g_co G b d w) -> e_b v b = e_b u b.
Proof.
  intros U Wu Cu V Wv Cv Last. destruct C37_write_read as (w' & F & [->|O]); [exists u; auto|exists v; auto| |exfalso; exact (Last w' O)].
  destruct (rf_wf _ (ex_sane _ _ X) _ _ _ F) as (u' & v' & U' & _ & _ & V' & _ & _ & E). unfold ev_at, at_ in *. congruence.
Qed.
End C37.
(* it is an order *)
Theorem C37_irreflexive T G d u : t_ie T = None -> t_wf T -> execution T G -> ev_at G d u -> ~ happens_before G d d.
Proof. intros Ie W X U H. exact (hb_apart T G Ie W X d d u u H U U eq_refl). Qed.
Lemma reaches_trans G p t q q' p2 : reaches G p (t, q) -> (q <= q')%nat -> reaches G (t, q') p2 -> reaches G p p2.
Proof.
  intros H. remember (t, q) as p1 eqn:E. revert t q E. induction H as [p p1 S|p t0 q0 q0' p1 S L R IH]; intros t q -> Q H2.
  - exact (re_more G p t q q' p2 S Q H2).
  - exact (re_more G p t0 q0 q0' p2 S L (IH t q eq_refl Q H2)).
Qed.
Theorem C37_transitive G d e f : happens_before G d e -> happens_before G e f -> happens_before G d f.
Proof.
  intros [[F L]|(t1 & q1 & t2 & q2 & B & R & A)] [[F' L']|(t3 & q3 & t4 & q4 & B' & R' & A')].
  - left. split; [congruence|lia].
  - right. exists t3, q3, t4, q4. split; [|auto]. destruct B' as [B1 B2]. split; [congruence|lia].
  - right. exists t1, q1, t2, q2. split; [exact B|]. split; [exact R|]. destruct A as [A1 A2]. split; [congruence|lia].
  - right. exists t1, q1, t4, q4. split; [exact B|]. split; [|exact A']. destruct A as [A1 A2], B' as [B1 B2]. assert (t3 = t2) as -> by congruence.
    assert (q2 <= q3)%nat as Q. { destruct (Nat.le_gt_cases q2 q3) as [Q|Q]; [exact Q|]. pose proof (base_mono G t2 q3 (S q2) ltac:(lia)). lia. }
    exact (reaches_trans G _ _ _ _ _ R Q R').
Qed.
