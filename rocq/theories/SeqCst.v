(* L3: SeqCst operations (C26) on every target. *)
From Verif Require Export Publish Foot.
From Coq Require Import Relations.Operators_Properties.

Lemma ct_mono (R S : eid -> eid -> Prop) x y : (forall u v, R u v -> S u v) -> clos_trans _ R x y -> clos_trans _ S x y.
Proof. intros H K. induction K; [apply ct1; auto|eapply t_trans; eauto]. Qed.
Lemma ct_in (R S : eid -> eid -> Prop) x y : (forall u v, R u v -> clos_trans _ S u v) -> clos_trans _ R x y -> clos_trans _ S x y.
Proof. intros H K. induction K; [auto|eapply t_trans; eauto]. Qed.
Section D.
Context (G : graph).
(* [x] is the read or the write of the SeqCst call [c], the [q]-th piece of thread [t] *)
Definition sc_access (x : eid) (t q : nat) (c : op) : Prop :=
  exists r its, call_at G t q c r its /\ total_order (eff c r) = true /\
    ((is_store c = false /\ the_read G x t q its) \/ the_write G x t q its).
Definition in_cell (c : op) (b : Z) : Prop := fst (op_cell c) <= b < fst (op_cell c) + snd (op_cell c).
(* [r] reads what [w] wrote to byte [b]; SeqCst operations on neighbouring cells may have written the byte back unchanged in between *)
Inductive passed (b : Z) : eid -> eid -> Prop :=
| p_one w r : g_rf G b w r -> passed b w r
| p_more w r1 w1 r t q c : g_rf G b w r1 -> sc_access r1 t q c -> sc_access w1 t q c -> po r1 w1 -> passed b w1 r -> passed b w r.
(* [r] reads what [w] or a later SeqCst operation wrote to byte [b] *)
Definition seen (b : Z) (w r : eid) : Prop := exists w' t q c, g_rf G b w' r /\ sc_access w' t q c /\ (w' = w \/ g_co G b w w').
(* what sequential consistency demands to come first: program order, and for two accesses to one cell the order in which they
   communicate *)
Definition sc_before (x y : eid) : Prop :=
  exists t q c t' q' c', sc_access x t q c /\ sc_access y t' q' c' /\
    (po x y \/ (op_cell c = op_cell c' /\ exists b, in_cell c b /\ (g_co G b x y \/ fr G b x y \/ passed b x y \/ seen b x y))).
End D.

Section P.
Context (T : arch) (G : graph) (X : execution T G).
Notation M := (arch_mm T).
Notation Sa := (ex_sane T G X).

(* the accesses *)
Lemma sc_inv x t q c : sc_access G x t q c -> exists r its i v, call_at G t q c r its /\ total_order (eff c r) = true /\ fst x = t /\
  snd x = (base G t q + i)%nat /\ at_ its i v /\ (i < length its)%nat /\ ev_at G x v /\ 
  ((e_w v = false /\ is_store c = false /\ op_read its i) \/ (e_w v = true /\ op_write its i)).
Proof.
  intros (r & its & C & O & [(N & F & i & E & R)|(F & i & E & W)]); exists r, its, i.
  - assert (exists v, at_ its i v /\ e_w v = false) as (v & A & Wv) by (destruct R as [(k & _ & _ & R & _)|(_ & _ & R & _)]; exact R).
    exists v. repeat split; auto; [exact (at_lt _ _ _ A)|exact (lift_ev G _ _ _ _ _ _ _ _ C F E A)].
  - destruct W as (L & (v & A & Wv) & N). exists v. repeat split; auto; [exact (lift_ev G _ _ _ _ _ _ _ _ C F E A)|]. right. split; auto. split; [auto|split; [exists v; auto|auto]].
Qed.
Lemma sc_range x t q c : sc_access G x t q c -> fst x = t /\ (base G t q <= snd x < base G t (S q))%nat.
Proof.
  intros H. destruct (sc_inv _ _ _ _ H) as (r & its & i & v & C & _ & F & E & _ & L & _). destruct (seg_split _ _ _ _ C) as (_ & _ & _ & _ & B). cbn [seg_its] in B. split; [auto|lia].
Qed.
Lemma sc_fun x t q c t' q' c' : sc_access G x t q c -> sc_access G x t' q' c' -> t = t' /\ q = q' /\ c = c'.
Proof.
  intros A B. destruct (sc_range _ _ _ _ A) as [F1 L1], (sc_range _ _ _ _ B) as [F2 L2]. assert (t' = t) as -> by congruence.
  assert (q = q') as <-. { destruct (lt_eq_lt_dec q q') as [[L|L]|L]; auto; [pose proof (base_mono G t (S q) q' L)|pose proof (base_mono G t (S q') q L)]; lia. }
  split; auto. split; auto. destruct A as (? & ? & A & _), B as (? & ? & B & _). unfold call_at in *. congruence.
Qed.
Lemma sc_solid x t q c : sc_access G x t q c -> solid G x.
Proof.
  intros (r & its & C & O & [(N & R)|(F & i & E & W)]); [exact (r_solid T G X _ _ _ _ _ C N x R)|].
  destruct W as (L & (v & A & Wv) & N). exists v. split; [exact (lift_ev G _ _ _ _ _ _ _ _ C F E A)|auto].
Qed.
(* two accesses of one call, or of two calls one after the other *)
Lemma sc_po_cases x y t q c t' q' c' : sc_access G x t q c -> sc_access G y t' q' c' -> po x y ->
  t = t' /\ ((q = q' /\ c = c' /\ exists r its i k, call_at G t q c r its /\ is_store c = false /\ op_read its i /\ op_write its k /\
     fst x = t /\ fst y = t /\ snd x = (base G t q + i)%nat /\ snd y = (base G t q + k)%nat) \/ (before G x t q' /\ after G y t q)).
Proof.
  intros A B [F L]. destruct (sc_range _ _ _ _ A) as [F1 L1], (sc_range _ _ _ _ B) as [F2 L2]. assert (t' = t) as -> by congruence. split; auto.
  destruct (lt_eq_lt_dec q q') as [[Q|<-]|Q].
  - right. pose proof (base_mono G t (S q) q' Q). split; split; auto; lia.
  - left. destruct (sc_fun y t q c t q c') as (_ & _ & <-); [|exact B|].
    { destruct A as (r & its & C & O & _), B as (r' & its' & C' & O' & B). unfold call_at in *. assert (c = c' /\ r = r' /\ its = its') as (-> & -> & ->) by (rewrite C in C'; injection C'; auto).
      exists r', its'. auto. }
    split; auto. split; auto. destruct (sc_inv _ _ _ _ A) as (r & its & i & v & C & O & _ & E & A1 & _ & _ & K), (sc_inv _ _ _ _ B) as (r' & its' & i' & v' & C' & O' & _ & E' & A1' & _ & _ & K').
    unfold call_at in *. assert (r = r' /\ its = its') as (<- & <-) by (rewrite C in C'; injection C'; auto).
    destruct K as [(W & N & K)|(W & K)], K' as [(W' & N' & K')|(W' & K')].
    + pose proof (or_unique _ _ _ K K'). lia.
    + exists r, its, i, i'. split; [exact C|]. split; [exact N|]. split; [exact K|]. split; [exact K'|]. auto.
    + destruct (or_lt _ _ _ K' K) as (Z & _). lia.
    + pose proof (ow_unique _ _ _ K K'). lia.
  - pose proof (base_mono G t (S q') q Q). lia.
Qed.
Lemma pair_linked t q c r its i k : call_at G t q c r its -> is_store c = false -> op_read its i -> op_write its k -> linked M its i k.
Proof.
  intros C N R W. destruct (o_pair _ _ _ _ _ _ _ (ord_of _ _ X _ _ _ _ _ C) N k W) as (i' & L). pose proof L as ((_ & L') & _). 
  now rewrite (lr_unique _ _ _ _ (or_lt _ _ _ R W) L').
Qed.
Lemma linked_tlo t q c r its x y i k : call_at G t q c r its -> linked M its i k -> fst x = t -> fst y = t -> 
  snd x = (base G t q + i)%nat -> snd y = (base G t q + k)%nat -> tlo T G x y.
Proof.
  intros C ((W & L) & D) F1 F2 E1 E2. destruct (seg_split _ _ _ _ C) as (pre & post & E & Lp & _). cbn [seg_its] in E. unfold tlo. rewrite F1, F2. split; auto.
  left. rewrite E, E1, E2, <- Lp. destruct W as (w & Aw & Ww). pose proof L as (Li & (u & Au & Wu) & _). destruct D as [D|D].
  - apply lo_rmw. destruct D as (z & Z1 & Z2 & Z3 & Z4). exists z. split; [now apply nth_ctx|]. split; auto. split; auto. apply last_read_ctx; auto. apply Nat.lt_le_incl. exact (at_lt _ _ _ Z1).
  - apply lo_base with u w; [lia|now apply nth_ctx|now apply nth_ctx|]. now rewrite Wu, Ww.
Qed.

(* ---- multi-copy atomic machines ---- *)
Lemma sc_facts x t q c : sc_access G x t q c -> exists r its i v, call_at G t q c r its /\ fst x = t /\ snd x = (base G t q + i)%nat /\ at_ its i v /\ ev_at G x v /\
  ((e_w v = false /\ sc_read M (arch_mca T) (arch_disc T) its i) \/ (e_w v = true /\ sc_write M (arch_mca T) (arch_disc T) its i)).
Proof.
  intros H. destruct (sc_inv _ _ _ _ H) as (r & its & i & v & C & O & F & E & A & _ & V & K). exists r, its, i, v. repeat split; auto.
  pose proof (ord_of _ _ X _ _ _ _ _ C) as Od. destruct K as [(W & N & K)|(W & K)].
  - left. split; auto. exact (o_scr _ _ _ _ _ _ _ Od N O i K).
  - right. split; auto. exact (o_scw _ _ _ _ _ _ _ Od O i K).
Qed.
Lemma sc_po_ob x y t q c t' q' c' : arch_mca T = true -> sc_access G x t q c -> sc_access G y t' q' c' -> po x y -> clos_trans _ (ob T G) x y.
Proof.
  intros Mc A B P. destruct (sc_po_cases _ _ _ _ _ _ _ _ A B P) as [<- [(_ & _ & r & its & i & k & C & N & R & W & F1 & F2 & E1 & E2)|[Bx Ay]]].
  { apply ct1. left. eapply linked_tlo; eauto. eapply pair_linked; eauto. }
  destruct (sc_facts _ _ _ _ A) as (r & its & i & v & C & F & E & Av & V & K), (sc_facts _ _ _ _ B) as (r' & its' & i' & v' & C' & F' & E' & Av' & V' & K').
  rewrite Mc in K, K'.
  assert (tailed M its i -> clos_trans _ (ob T G) x y) as HT by (intros H; apply ct1; left; exact (lift_tailed T G _ _ _ _ _ _ _ _ _ C H F E Ay V')).
  assert (headed M its' i' -> clos_trans _ (ob T G) x y) as HH by (intros H; apply ct1; left; exact (lift_headed T G _ _ _ _ _ _ _ _ _ C' H F' E' Bx V)).
  unfold sc_read, sc_write in K, K'. destruct (arch_disc T).
  - apply HT. tauto.
  - apply HH. tauto.
  - destruct K as [(_ & K & _)|(W & K1 & K2)]; [apply HT; exact K|]. destruct K' as [(W' & K3 & K4)|(W' & K' & _)]; [|apply HH; exact K'].
    destruct K2 as [K2|K2]; [apply HT; exact K2|]. destruct K2 as (u & Au & Wu & Ru). unfold at_ in Au. rewrite Av in Au. injection Au as <-.
    destruct (seg_split _ _ _ _ C') as (pre & post & Ei & Lp & _). cbn [seg_its] in Ei. destruct Bx as [Fx Lx].
    unfold ev_at in V. rewrite Fx, Ei in V. rewrite <- Lp in Lx.
    destruct (acqd_lo M pre its' post i' (snd x) v K4 (ex_intro _ _ Av') V Lx W Ru) as [L|(k & L1 & L2)].
    + apply ct1. left. split; [congruence|]. left. rewrite Fx, Ei, E', <- Lp. exact L.
    + apply t_trans with (t, k); apply ct1; left; split; cbn [fst snd]; auto; left; rewrite ?Fx, Ei; auto. rewrite E', <- Lp. exact L2.
Qed.
Lemma sc_com_ob b x y t q c t' q' c' : arch_mca T = true -> sc_access G x t q c -> sc_access G y t' q' c' -> com G b x y -> clos_trans _ (ob T G) x y.
Proof.
  intros Mc A B H. destruct (dec_apart x y) as [E|E].
  - apply ct1. right. split; auto. split; [exact (sc_solid _ _ _ _ A)|]. split; [exact (sc_solid _ _ _ _ B)|eauto].
  - exact (sc_po_ob _ _ _ _ _ _ _ _ Mc A B (com_int _ _ X _ _ _ H E)).
Qed.
Lemma passed_ob b x y : arch_mca T = true -> passed G b x y -> forall t q c t' q' c', sc_access G x t q c -> sc_access G y t' q' c' -> clos_trans _ (ob T G) x y.
Proof.
  intros Mc H. induction H as [w r F|w r1 w1 r t1 q1 c1 F A1 A2 P H IH]; intros t q c t' q' c' A B.
  - eapply sc_com_ob; eauto. left. eauto.
  - apply t_trans with r1; [eapply sc_com_ob; eauto; left; eauto|]. apply t_trans with w1; [eapply sc_po_ob; eauto|eauto].
Qed.
Lemma seen_ob b x y : arch_mca T = true -> seen G b x y -> forall t q c t' q' c', sc_access G x t q c -> sc_access G y t' q' c' -> clos_trans _ (ob T G) x y.
Proof.
  intros Mc (w' & t1 & q1 & c1 & F & A1 & K) t q c t' q' c' A B. assert (clos_trans _ (ob T G) w' y) as H by (eapply (sc_com_ob b w' y); eauto; left; exact F).
  destruct K as [->|K]; [exact H|]. apply t_trans with w'; [eapply (sc_com_ob b x w'); eauto; right; left; exact K|exact H].
Qed.
Lemma sc_mca : arch_mca T = true -> forall x, ~ clos_trans _ (sc_before G) x x.
Proof.
  intros Mc x H. pose proof (ex_mm _ _ X) as Y. rewrite Mc in Y. apply (Y x). revert H. apply ct_in. clear x. intros x y (t & q & c & t' & q' & c' & A & B & K).
  destruct K as [P|(_ & b & _ & [K|[K|[K|K]]])].
  - eapply sc_po_ob; eauto.
  - eapply sc_com_ob; eauto. right. left. eauto.
  - eapply sc_com_ob; eauto. right. right. eauto.
  - eapply passed_ob; eauto.
  - eapply seen_ob; eauto.
Qed.

(* ---- the other machines ---- *)
Lemma nmca_disc : arch_mca T = false -> arch_disc T <> DArm.
Proof. destruct T; cbn; intros; try discriminate. Qed.
Lemma sc_po_ff x y t q c t' q' c' : arch_mca T = false -> sc_access G x t q c -> sc_access G y t' q' c' -> po x y ->
  tffence T G x y \/ (t = t' /\ q = q' /\ rmw_pair G x y).
Proof.
  intros Mc A B P. destruct (sc_po_cases _ _ _ _ _ _ _ _ A B P) as [<- [(<- & _ & r & its & i & k & C & N & R & W & F1 & F2 & E1 & E2)|[Bx Ay]]].
  { right. split; auto. split; auto. split; [congruence|]. destruct (pair_linked _ _ _ _ _ _ _ C N R W) as (_ & [D|D]); [|destruct (nmca_plain T G X Mc) as [_ Z]; rewrite Z in D; discriminate D].
    destruct (seg_split _ _ _ _ C) as (pre & post & E & Lp & _). cbn [seg_its] in E. rewrite F1, E, E1, E2, <- Lp.
    destruct D as (z & Z1 & Z2 & Z3 & Z4). exists z. split; [now apply nth_ctx|]. split; auto. split; auto. apply last_read_ctx; auto. apply Nat.lt_le_incl. exact (at_lt _ _ _ Z1). }
  left.
  destruct (sc_facts _ _ _ _ A) as (r & its & i & v & C & F & E & Av & V & K), (sc_facts _ _ _ _ B) as (r' & its' & i' & v' & C' & F' & E' & Av' & V' & K').
  rewrite Mc in K, K'. unfold sc_read, sc_write in K, K'. destruct (arch_disc T) eqn:Ed; [| |exfalso; exact (nmca_disc Mc Ed)].
  - assert (ffa M its i) as Hf by tauto. exact (lift_ffa T G _ _ _ _ _ _ _ _ _ C Hf (ex_intro _ _ Av) F E Ay V').
  - assert (ffb M its' i') as Hf by tauto. exact (lift_ffb T G _ _ _ _ _ _ _ _ _ C' Hf (ex_intro _ _ Av') F' E' Bx V).
Qed.

Lemma passed_com b x y : arch_mca T = false -> passed G b x y -> clos_trans _ (com G b) x y.
Proof.
  intros Mc H. induction H as [w r F|w r1 w1 r t1 q1 c1 F A1 A2 P H IH]; [apply ct1; left; auto|].
  apply t_trans with r1; [apply ct1; left; auto|]. apply t_trans with w1; [|exact IH]. apply ct1. right. right.
  assert (rmw_pair G r1 w1) as R.
  { destruct (sc_po_cases _ _ _ _ _ _ _ _ A1 A2 P) as [_ [(_ & _ & K)|[[_ L] _]]].
    - destruct (sc_po_ff _ _ _ _ _ _ _ _ Mc A1 A2 P) as [H0|(_ & _ & R)]; [|exact R].
      destruct K as (r0 & its & i & k & C & N & R & W & F1 & F2 & E1 & E2).
      destruct (pair_linked _ _ _ _ _ _ _ C N R W) as (_ & [D|D]); [|destruct (nmca_plain T G X Mc) as [_ Z]; rewrite Z in D; discriminate D].
      destruct (seg_split _ _ _ _ C) as (pre & post & E & Lp & _). cbn [seg_its] in E. split; [congruence|]. rewrite F1, E, E1, E2, <- Lp.
      destruct D as (z & Z1 & Z2 & Z3 & Z4). exists z. split; [now apply nth_ctx|]. split; auto. split; auto. apply last_read_ctx; auto. apply Nat.lt_le_incl. exact (at_lt _ _ _ Z1).
    - destruct (sc_range _ _ _ _ A1) as [_ L1]. lia. }
  apply (rmw_fr T G X); auto; [exact (proj2 (rf_ends T G X _ _ _ F))|].
  inversion H as [? ? F'|? ? ? ? ? ? ? F']; subst; exact (proj1 (rf_ends T G X _ _ _ F')).
Qed.

Lemma seen_com b x y : seen G b x y -> clos_trans _ (com G b) x y.
Proof.
  intros (w' & _ & _ & _ & F & _ & [->|K]); [apply ct1; left; exact F|]. apply t_trans with w'; [apply ct1; right; left; exact K|apply ct1; left; exact F].
Qed.
(* communication between accesses of one cell *)
Definition cellcom (x y : eid) : Prop := exists t q c t' q' c' b, sc_access G x t q c /\ sc_access G y t' q' c' /\ op_cell c = op_cell c' /\ in_cell c b /\
  (g_co G b x y \/ fr G b x y \/ passed G b x y \/ seen G b x y).
Lemma cellcom_coms x y : arch_mca T = false -> cellcom x y -> coms G x y.
Proof.
  intros Mc (t & q & c & t' & q' & c' & b & _ & _ & _ & _ & K). unfold coms.
  assert (clos_trans _ (com G b) x y) as H by (destruct K as [K|[K|[K|K]]]; [apply ct1; right; left; auto|apply ct1; right; right; auto|apply passed_com; auto|apply seen_com; auto]).
  clear K. induction H; [apply rt_step; eauto|eapply rt_trans; eauto].
Qed.
Context (Wf : t_wf T).
Lemma sc_covers x t q c b : arch_mca T = false -> sc_access G x t q c -> in_cell c b -> exists v, ev_at G x v /\ covers v b.
Proof.
  intros Mc A I. destruct (sc_inv _ _ _ _ A) as (r & its & i & v & C & O & F & E & Av & _ & V & K). exists v. split; auto.
  destruct (call_covers T c its r Mc Wf (ex_calls _ _ X _ _ _ _ _ C)) as [H1 H2]. unfold in_cell in I.
  assert (covers_cell v c) as [Z1 Z2] by (destruct K as [(W & N & K)|(W & K)]; [exact (H1 i v N K Av)|apply (H2 i v); [apply K|exact Av]]).
  unfold covers. lia.
Qed.
Lemma acc_w x b v : ev_at G x v -> covers v b -> (exists b', writes_b G x b') -> writes_b G x b.
Proof. intros A C (b' & u & A' & W & _). exists v. split; auto. split; auto. unfold ev_at, at_ in *. rewrite A in A'. injection A' as <-. auto. Qed.
Lemma acc_r x b v : ev_at G x v -> covers v b -> (exists b', reads_b G x b') -> reads_b G x b.
Proof. intros A C (b' & u & A' & W & _). exists v. split; auto. split; auto. unfold ev_at, at_ in *. rewrite A in A'. injection A' as <-. auto. Qed.
(* it is the same communication at every byte of the cell *)
Lemma cellcom_byte b0 x y t q c : arch_mca T = false -> sc_access G x t q c -> in_cell c b0 -> cellcom x y ->
  (exists t' q' c', sc_access G y t' q' c' /\ op_cell c' = op_cell c) /\ clos_trans _ (com G b0) x y.
Proof.
  intros Mc Ax I0 (t1 & q1 & c1 & t' & q' & c' & b & A & B & Ce & I & K). destruct (sc_fun _ _ _ _ _ _ _ A Ax) as (-> & -> & ->).
  assert (in_cell c' b0 /\ in_cell c' b) as [I0' I'] by (unfold in_cell in *; rewrite <- Ce; auto).
  split; [exists t', q', c'; auto|].
  pose proof (ex_mm _ _ X) as Y. rewrite Mc in Y.
  destruct (sc_covers _ _ _ _ _ Mc A I0) as (vx & Vx & Cx), (sc_covers _ _ _ _ _ Mc B I0') as (vy & Vy & Cy).
  destruct K as [K|[K|K]].
  - destruct (co_wf _ Sa _ _ _ K). apply ct1. right. left. eapply (sca_co _ _ Y); [exact K|eapply acc_w; eauto|eapply acc_w; eauto].
  - pose proof K as (R & W & _). apply ct1. right. right. eapply (sca_fr _ _ Y); [exact (sc_solid _ _ _ _ A)|exact K|eapply acc_r; eauto|eapply acc_w; eauto].
  - assert (clos_trans _ (com G b) x y) as Cb by (destruct K as [K|K]; [exact (passed_com _ _ _ Mc K)|exact (seen_com _ _ _ K)]).
    assert (writes_b G x b) as Wx.
    { destruct K as [K|(w' & _ & _ & _ & F' & _ & [->|K])]; [inversion K as [? ? F'|? ? ? ? ? ? ? F']; subst; exact (proj1 (rf_ends T G X _ _ _ F'))|exact (proj1 (rf_ends T G X _ _ _ F'))|exact (proj1 (co_wf _ Sa _ _ _ K))]. }
    assert (reads_b G y b) as Ry.
    { destruct K as [K|(w' & _ & _ & _ & F' & _)]; [|exact (proj2 (rf_ends T G X _ _ _ F'))]. clear - K X; induction K as [w r F|]; [exact (proj2 (rf_ends T G X _ _ _ F))|auto]. }
    destruct (sc_covers _ _ _ _ _ Mc A I) as (vx' & Vx' & Cx'), (sc_covers _ _ _ _ _ Mc B I') as (vy' & Vy' & Cy').
    assert (~ fr G b0 y x) as N.
    { intros Fr. assert (fr G b y x) as Fb by (eapply (sca_fr _ _ Y); [exact (sc_solid _ _ _ _ B)|exact Fr|exact Ry|exact Wx]).
      apply (coherent _ Sa b x). apply t_trans with y; [|apply ct1; right; right; right; exact Fb].
      clear - Cb. induction Cb; [apply ct1; right; auto|eapply t_trans; eauto]. }
    destruct (sees T G X b0 x y) as (w' & Rf & Hw'); [exact (acc_w x b0 vx Vx Cx (ex_intro _ b Wx))|exact (acc_r y b0 vy Vy Cy (ex_intro _ b Ry))|exact N|].
    destruct Hw' as [->|H]; [apply ct1; left; exact Rf|]. apply t_trans with w'; [apply ct1; right; left; exact H|apply ct1; left; exact Rf].
Qed.
Lemma cellcom_acyclic : arch_mca T = false -> forall x, ~ clos_trans _ cellcom x x.
Proof.
  intros Mc x H. assert (exists t q c b, sc_access G x t q c /\ in_cell c b) as (t & q & c & b & A & I).
  { apply clos_trans_t1n in H. inversion H as [y K|y z K _]; destruct K as (t & q & c & t' & q' & c' & b & A & B & Ce & I & K); exists t, q, c, b; auto. }
  apply (coherent _ Sa b x). assert (forall y, clos_trans _ cellcom x y -> (exists t' q' c', sc_access G y t' q' c' /\ op_cell c' = op_cell c) /\ clos_trans _ (com G b) x y) as K.
  { intros y Hy. apply clos_trans_tn1 in Hy. induction Hy as [y K|y z K _ ((t' & q' & c' & A' & Ce) & IH)].
    - exact (cellcom_byte b x y t q c Mc A I K).
    - assert (in_cell c' b) as I' by (unfold in_cell in *; rewrite Ce; auto).
      destruct (cellcom_byte b y z t' q' c' Mc A' I' K) as ((t2 & q2 & c2 & A2 & Ce2) & Hc). split; [exists t2, q2, c2; split; [auto|congruence]|eapply t_trans; eauto]. }
  destruct (K x H) as [_ Hc]. revert Hc. apply ct_mono. auto.
Qed.

(* a cycle made of [A] and [B] steps has only [B] steps, or is made of pieces ending in an [A] step *)
Lemma mix (A B : eid -> eid -> Prop) x y : clos_trans _ (fun x y => A x y \/ B x y) x y ->
  clos_trans _ B x y \/ exists z, clos_trans _ (and_then (clos_refl_trans _ B) A) x z /\ clos_refl_trans _ B z y.
Proof.
  intros H. apply clos_trans_tn1 in H. induction H as [y [K|K]|y z [K|K] _ IH].
  - right. exists y. split; [apply ct1; exists x; split; [apply rt_refl|auto]|apply rt_refl].
  - left. now apply ct1.
  - right. exists z. split; [|apply rt_refl]. destruct IH as [IH|(u & U & V)].
    + apply ct1. exists y. split; auto. clear - IH. induction IH; [now apply rt_step|eapply rt_trans; eauto].
    + apply t_trans with u; auto. apply ct1. exists y. auto.
  - destruct IH as [IH|(u & U & V)].
    + left. apply t_trans with y; [auto|now apply ct1].
    + right. exists u. split; auto. apply rt_trans with y; [auto|now apply rt_step].
Qed.
Lemma mix_pre (A B : eid -> eid -> Prop) z x w : clos_refl_trans _ B z x -> clos_trans _ (and_then (clos_refl_trans _ B) A) x w -> clos_trans _ (and_then (clos_refl_trans _ B) A) z w.
Proof.
  intros H K. apply clos_trans_t1n in K. destruct K as [y (u & U & V)|y w (u & U & V) K].
  - apply ct1. exists u. split; auto. eapply rt_trans; eauto.
  - apply t_trans with y; [apply ct1; exists u; split; auto; eapply rt_trans; eauto|now apply clos_t1n_trans].
Qed.
Lemma mix_cycle (A B : eid -> eid -> Prop) x : clos_trans _ (fun x y => A x y \/ B x y) x x ->
  clos_trans _ B x x \/ exists z, clos_trans _ (and_then (clos_refl_trans _ B) A) z z.
Proof. intros H. destruct (mix _ _ _ _ H) as [K|(z & K & L)]; [auto|right]. exists z. eapply mix_pre; eauto. Qed.

Lemma sc_nmca : arch_mca T = false -> forall x, ~ clos_trans _ (sc_before G) x x.
Proof.
  intros Mc x H. pose proof (ex_mm _ _ X) as Y. rewrite Mc in Y.
  assert (clos_trans _ (fun x y => tffence T G x y \/ cellcom x y) x x) as K.
  { revert H. apply ct_mono. clear x. intros x y (t & q & c & t' & q' & c' & A & B & K).
    destruct K as [P|(Ce & b & I & K)]; [|right; exists t, q, c, t', q', c', b; auto].
    destruct (sc_po_ff _ _ _ _ _ _ _ _ Mc A B P) as [F|(<- & <- & R)]; [left; auto|right].
    assert (c = c') as <-.
    { destruct (sc_po_cases _ _ _ _ _ _ _ _ A B P) as [_ [(_ & E & _)|[[_ L] _]]]; [exact E|]. destruct (sc_range _ _ _ _ A) as [_ L1]. lia. }
    assert (exists b, in_cell c b) as (b & I).
    { exists (fst (op_cell c)). destruct A as (r & its & C & _). pose proof (ex_calls _ _ X _ _ _ _ _ C) as CI. clear C. destruct CI as [f os s0 its' sf r' _ _ Im _ _ _ _ _ _].
      pose proof (impl_pos _ _ _ Im). unfold in_cell. lia. }
    exists t, q, c, t, q, c, b. split; auto. split; auto. split; auto. split; auto. right. left.
    destruct (sc_covers _ _ _ _ _ Mc A I) as (vx & Vx & Cx), (sc_covers _ _ _ _ _ Mc B I) as (vy & Vy & Cy).
    apply (rmw_fr T G X); auto.
    - exists vx. split; auto. split; auto. destruct R as [_ (w & _ & _ & _ & _ & (u & Au & Wu) & _)]. unfold ev_at, at_ in *. rewrite Vx in Au. injection Au as <-. exact Wu.
    - exists vy. split; auto. split; auto. destruct R as [Fr (w & Aw & Ww & _)]. unfold ev_at, at_ in *. rewrite <- Fr, Aw in Vy. injection Vy as <-. exact Ww. }
  destruct (mix_cycle _ _ _ K) as [K1|(z & K1)]; [exact (cellcom_acyclic Mc x K1)|].
  apply (propagation _ _ Y z). revert K1. apply ct_mono. intros u v (s & S1 & S2). right. right. exists s. split.
  - clear - S1 Mc X. induction S1; [now apply cellcom_coms|apply rt_refl|eapply rt_trans; eauto].
  - exists s. split; [apply rt_refl|]. exists v. split; [exact S2|apply rt_refl].
Qed.
Theorem sc_acyclic : forall x, ~ clos_trans _ (sc_before G) x x.
Proof. destruct (arch_mca T) eqn:Mc; [now apply sc_mca|now apply sc_nmca]. Qed.
End P.
