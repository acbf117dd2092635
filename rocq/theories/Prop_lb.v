(* C41: why executions with values out of thin air have to be excluded.  Load buffering with branches: each thread reads one location and, only
   if it finds 1 there, writes 1 to the other.  No interleaving has a write, so the program has no data race in the sense of C41 - but machines
   that do not keep reads before later writes, modelled without the dependencies of the code outside the library, have an execution in which both
   read 1.  It has races and no interleaving. *)
From Verif Require Import Arch_riscv Arch_powerpc Arch_aarch64 Ex_graph Ex_sc Examples Prop_drfprog Prop_drfsc Prop_drf Prop_hb Merge.

Definition cell_of (t : nat) : Z := match t with O => 0x1000 | _ => 0x2000 end.
Definition looks (t : nat) (v : ev) : Prop := e_w v = false /\ e_t v = false /\ e_a v = cell_of t /\ e_n v = 1.
Definition sets1 (t : nat) : ev := mkev true (cell_of (1 - t)) 1 (fun _ => 1) plain false false.
Definition lb_prog (t : nat) (h : list act) : Prop :=
  h = [] \/ (t < 2)%nat /\ exists v, looks t v /\ (h = [AMem v] \/ e_b v (cell_of t) = 1 /\ h = [AMem v; AMem (sets1 t)]).

(* ---- machinery ---- *)
Definition sees1 (t : nat) : ev := mkev false (cell_of t) 1 (fun _ => 1) plain false false.
Definition lb : graph := mkgraph
  (fun t => match t with O => [Code [IE (sees1 0); IE (sets1 0)]] | S O => [Code [IE (sees1 1); IE (sets1 1)]] | _ => [] end) (fun _ => 0)
  (fun b w r => w = (0, 1)%nat /\ r = (1, 0)%nat /\ b = 0x2000 \/ w = (1, 1)%nat /\ r = (0, 0)%nat /\ b = 0x1000) (fun _ _ _ => False).
Lemma lb_in t h a : lb_prog t h -> In a h -> (t < 2)%nat /\ exists v, a = AMem v /\ (looks t v \/ v = sets1 t).
Proof. intros [->|(L & v & K & [->|(_ & ->)])] I; [destruct I|split; [exact L|]..]; cbn in I; intuition (subst; eauto). Qed.
Lemma lb_next t h v : lb_prog t (h ++ [AMem v]) -> (t < 2)%nat /\ (h = [] /\ looks t v \/ exists u, looks t u /\ e_b u (cell_of t) = 1 /\ h = [AMem u] /\ v = sets1 t).
Proof.
  intros [Q|(L & u & K & [Q|(B & Q)])]; (destruct h as [|a [|c [|d h]]]; try discriminate Q); injection Q; intros; subst; split; auto.
  right. eauto.
Qed.
Lemma lb_program : sc_program lb_prog.
Proof.
  constructor.
  - intros t h h' [Q|(L & v & K & [Q|(B & Q)])]; [apply app_eq_nil in Q; left; tauto|..];
      (destruct h as [|a [|c [|d h]]]; try discriminate Q; [now left|..]); injection Q; intros; subst; right; split; auto; exists v; auto.
  - intros t h c r H I. destruct (lb_in _ _ _ H I) as (_ & v & Q & _). discriminate Q.
  - intros t h c r t' h' c' r' H I. destruct (lb_in _ _ _ H I) as (_ & v & Q & _). discriminate Q.
  - intros t h c r t' h' v b H I. destruct (lb_in _ _ _ H I) as (_ & u & Q & _). discriminate Q.
  - intros t h v H I. destruct (lb_in _ _ _ H I) as (_ & u & Q & [K|K]); injection Q as ->; [apply K|now subst].
Qed.
(* in an interleaving every read finds 0 *)
Definition zero (t : nat) (h : list act) : Prop := h = [] \/ (t < 2)%nat /\ exists v, looks t v /\ e_b v (cell_of t) = 0 /\ h = [AMem v].
Lemma lb_zero T H m mf : merged (act_step T) H m mf -> (forall b, m b = 0) -> (forall t, lb_prog t (H t)) -> forall t, zero t (H t).
Proof.
  intros M. induction M as [H m E|H H' t0 a l m m' mf E E' Eo St M IH]; intros Z HP t; [left; apply E|].
  pose proof (HP t0) as P0. rewrite E in P0. destruct P0 as [Q|(L & v & (W & Tt & A & N) & Q)]; [discriminate Q|].
  assert (a = AMem v) as -> by (destruct Q as [Q|(_ & Q)]; injection Q; auto). cbn in St. unfold plain_step in St. rewrite W in St. destruct St as (B & Em).
  assert (e_b v (cell_of t0) = 0) as B0 by (rewrite B, Z; auto; unfold covers; lia).
  assert (l = []) as -> by (destruct Q as [Q|(B1 & _)]; [now injection Q|congruence]).
  destruct (Nat.eq_dec t t0) as [->|Ne]; [right; split; auto; exists v; repeat split; auto|]. rewrite <- (Eo t Ne). apply IH; [intros b; rewrite (Em b); apply Z|].
  intros t'. destruct (Nat.eq_dec t' t0) as [->|Ne']; [rewrite E'; now left|rewrite Eo; auto].
Qed.
Lemma lb_free T : sc_race_free (act_step T) lb_prog (g_init lb).
Proof.
  intros H mf M HP t1 t2 v1 v2 b Ne H1 H2 _ _. pose proof (lb_zero T _ _ _ M (fun _ => eq_refl) HP) as Z.
  assert (forall t v, lb_prog t (H t ++ [AMem v]) -> e_w v = false) as K; [|eauto].
  intros t v Hv. destruct (lb_next _ _ _ Hv) as (_ & [(_ & K)|(u & (_ & _ & A & _) & B & E & _)]); [apply K|].
  destruct (Z t) as [Q|(_ & u' & _ & B' & Q)]; rewrite E in Q; [discriminate Q|]. injection Q as <-. congruence.
Qed.
Lemma lb_ev x v : ev_at lb x v -> (exists t, (t < 2)%nat /\ (x = (t, O) /\ v = sees1 t \/ x = (t, 1%nat) /\ v = sets1 t)).
Proof.
  destruct x as [t k]. unfold ev_at, at_, items, flat. cbn [fst snd]. destruct t as [|[|t]]; cbn; [..|destruct k; discriminate].
  - intros H. exists O. split; [lia|]. destruct k as [|[|k]]; cbn in H; [injection H as <-; auto|injection H as <-; auto|destruct k; discriminate H].
  - intros H. exists 1%nat. split; [lia|]. destruct k as [|[|k]]; cbn in H; [injection H as <-; auto|injection H as <-; auto|destruct k; discriminate H].
Qed.
Lemma lb_rd t : (t < 2)%nat -> ev_at lb (t, O) (sees1 t).
Proof. intros L. destruct t as [|[|t]]; [reflexivity|reflexivity|lia]. Qed.
Lemma lb_wr t : (t < 2)%nat -> ev_at lb (t, 1%nat) (sets1 t).
Proof. intros L. destruct t as [|[|t]]; [reflexivity|reflexivity|lia]. Qed.
Lemma lb_fr b r w : ~ fr lb b r w.
Proof.
  intros ((v & A & W & C) & _ & F). destruct (lb_ev _ _ A) as (t & L & [(-> & ->)|(-> & ->)]); [|discriminate W]. unfold covers in C. cbn in C.
  destruct t as [|[|t]]; cbn in C; [|..|lia]; [apply (F (1, 1)%nat)|apply (F (0, 1)%nat)]; cbn; [right|left]; split; auto; split; auto; lia.
Qed.
(* writes before reads *)
Definition wr_lt (x y : eid) : Prop := snd x = 1%nat /\ snd y = O.
Lemma lb_com b x y : com lb b x y -> wr_lt x y.
Proof. intros [[(-> & -> & _)|(-> & -> & _)]|[[]|F]]; [split; auto|split; auto|]. destruct (lb_fr _ _ _ F). Qed.
Lemma wr_ct (R : eid -> eid -> Prop) : (forall x y, R x y -> wr_lt x y) -> forall x y, clos_trans _ R x y -> wr_lt x y.
Proof. intros K x y C. induction C as [x y H|x y z _ [A B] _ [C D]]; [auto|]. congruence. Qed.
Lemma wr_no (R : eid -> eid -> Prop) : (forall x y, R x y -> wr_lt x y) -> forall x, ~ clos_trans _ R x x.
Proof. intros K x C. destruct (wr_ct R K _ _ C). congruence. Qed.
Lemma lb_one b x y : writes_b lb x b -> writes_b lb y b -> x = y.
Proof.
  intros (w & A & W & C) (w' & A' & W' & C'). unfold covers in *. destruct (lb_ev _ _ A) as (t & L & [(-> & ->)|(-> & ->)]); [discriminate W|]. destruct (lb_ev _ _ A') as (t' & L' & [(-> & ->)|(-> & ->)]); [discriminate W'|].
  cbn in C, C'. destruct t as [|[|t]], t' as [|[|t']]; auto; cbn in *; lia.
Qed.
Lemma lb_poloc b x y : ~ poloc lb b x y.
Proof.
  intros ([E L] & (v & A & C) & (u & B & D)). unfold covers in *. destruct (lb_ev _ _ A) as (t & Lt & Q), (lb_ev _ _ B) as (t' & Lt' & Q').
  destruct Q as [(-> & ->)|(-> & ->)], Q' as [(-> & ->)|(-> & ->)]; cbn in E, L; subst; try lia. destruct t' as [|[|t]]; cbn in *; lia.
Qed.
Lemma lb_sane : sane lb.
Proof.
  constructor.
  - intros b w r [(-> & -> & ->)|(-> & -> & ->)]; [exists (sets1 0), (sees1 1)|exists (sets1 1), (sees1 0)]; unfold covers; cbn; repeat split; lia.
  - intros b w w' r [(-> & -> & ->)|(-> & -> & ->)] [(-> & Q & _)|(-> & Q & _)]; auto; discriminate Q.
  - intros b r v A W C. left. destruct (lb_ev _ _ A) as (t & L & [(-> & ->)|(-> & ->)]); [|discriminate W]. unfold covers in C. cbn in C.
    destruct t as [|[|t]]; [exists (1, 1)%nat|exists (0, 1)%nat|lia]; cbn in *; [right|left]; split; auto; split; auto; lia.
  - intros b x y [].
  - intros b x y z [].
  - intros b x y A B N. destruct (N (lb_one _ _ _ A B)).
  - intros b. apply wr_no. intros x y [P|C]; [destruct (lb_poloc _ _ _ P)|exact (lb_com _ _ _ C)].
  - intros b r w w' _ _ [].
Qed.
Lemma lb_items t k i : nth_error (items lb t) k = Some i -> exists v, i = IE v.
Proof. unfold items, flat. destruct t as [|[|t]]; cbn; intros H; (destruct k as [|[|k]]; cbn in H; [..|destruct k; discriminate H]; try discriminate H; injection H as <-; eauto). Qed.
Lemma lb_coi x y : ~ clos_trans _ (coi lb) x y.
Proof. intros C. induction C as [x y (_ & b & [])|]; auto. Qed.
Lemma lb_acc x v : ev_at lb x v -> a_aq (e_o v) = false /\ a_rl (e_o v) = false /\ e_x v = false.
Proof. intros A. destruct (lb_ev _ _ A) as (t & _ & [(_ & ->)|(_ & ->)]); auto. Qed.
Lemma lb_tf T x y : ~ tfence T lb x y.
Proof. intros [_ (v & w & k & _ & _ & _ & [(f & H & _)|H])]; destruct (lb_items _ _ _ H); discriminate. Qed.
Lemma lb_tff T x y : ~ tffence T lb x y.
Proof. intros [_ (_ & _ & k & _ & [(f & H & _)|H])]; destruct (lb_items _ _ _ H); discriminate. Qed.
Lemma lb_tlo T x y : m_base (arch_mm T) false true = false -> ~ tlo T lb x y.
Proof.
  intros Mb [E L]. destruct L as [L|L].
  - destruct L as [v w Lt A B Bs|v w Lt A B Q|v w Lt A B Q|v w Lt A B _ _ Q|F|C|R].
    + assert (ev_at lb (fst x, snd x) v) as A' by exact A. assert (ev_at lb (fst x, snd y) w) as B' by exact B. destruct (lb_ev _ _ A') as (t & _ & [(Q & ->)|(Q & ->)]), (lb_ev _ _ B') as (t' & _ & [(Q' & ->)|(Q' & ->)]);
        injection Q as _ Qa; injection Q' as _ Qb; try lia. cbn in Bs. congruence.
    + assert (ev_at lb (fst x, snd x) v) as A' by exact A. destruct (lb_acc _ _ A'). congruence.
    + assert (ev_at lb (fst x, snd y) w) as A' by exact B. destruct (lb_acc _ _ A') as (_ & K & _). congruence.
    + assert (ev_at lb (fst x, snd x) v) as A' by exact A. destruct (lb_acc _ _ A') as (_ & K & _). congruence.
    + exact (lb_tf T x y (conj E F)).
    + destruct C as (_ & k & m & f & _ & _ & H & _). destruct (lb_items _ _ _ H). discriminate.
    + destruct R as (w & A & _ & Q & _). assert (ev_at lb (fst x, snd y) w) as A' by exact A. destruct (lb_acc _ _ A') as (_ & _ & K). congruence.
  - destruct L as [w u v _ _ A _ Q _|w _ C|b r v _ _ A Q]; [destruct (lb_acc _ _ A) as (_ & K & _); congruence|exact (lb_coi _ _ C)|destruct (lb_acc _ _ A); congruence].
Qed.
Lemma lb_pb T x y : m_base (arch_mm T) false true = false -> ~ prop_base T lb x y.
Proof. intros Mb (z & [H|(k & _ & H)] & _); exact (lb_tf _ _ _ H). Qed.
Lemma lb_execution T : m_base (arch_mm T) false true = false -> execution T lb.
Proof.
  intros Mb. constructor; [|exact lb_sane|].
  - intros t q c r its H. destruct t as [|[|t]], q as [|[|q]]; cbn in H; try discriminate H; destruct q; discriminate H.
  - destruct (arch_mca T).
    + unfold mca_ok. apply wr_no. intros x y [H|(_ & _ & _ & b & H)]; [destruct (lb_tlo _ _ _ Mb H)|exact (lb_com _ _ _ H)].
    + constructor.
      * apply wr_no. intros x y [H|[_ [k H]]]; [destruct (lb_tlo _ _ _ Mb H)|apply (lb_com k); now left].
      * intros x (y & [_ [b F]] & _). destruct (lb_fr _ _ _ F).
      * apply wr_no. intros x y [[b []]|[(H & _)|(z & _ & k & _ & l & H & _)]]; [destruct (lb_pb _ _ _ Mb H)|destruct (lb_tff _ _ _ H)].
      * intros b b' x y [].
      * intros b b' x y _ F. destruct (lb_fr _ _ _ F).
Qed.
Lemma lb_nocall t q c r its : ~ call_at lb t q c r its.
Proof. intros H. unfold call_at in H. destruct t as [|[|t]], q as [|[|q]]; cbn in H; try discriminate H; destruct q; discriminate H. Qed.

(* ---- theorem ---- *)
(* without [in_time], C41_no_races and C41_drf_sc_program would be false on every target that does not keep reads before later writes *)
Theorem C41_in_time_needed T : m_base (arch_mm T) false true = false -> exists P G,
  sc_program P /\ sc_race_free (act_step T) P (g_init G) /\ execution T G /\ (forall t, P t (acts (g_thr G t))) /\ (exists N, forall t, (N <= t)%nat -> g_thr G t = []) /\
  ~ race_free G (happens_before G) /\ ~ exists mf, merged (act_step T) (fun t => acts (g_thr G t)) (g_init G) mf.
Proof.
  intros Mb. exists lb_prog, lb. assert (forall t, lb_prog t (acts (g_thr lb t))) as HP.
  { intros [|[|t]]; [right; split; [lia|]..|now left]; [exists (sees1 0)|exists (sees1 1)]; (split; [repeat split|right; repeat split]). }
  split; [exact lb_program|]. split; [exact (lb_free T)|]. split; [exact (lb_execution T Mb)|]. split; [exact HP|].
  split; [exists 2%nat; intros [|[|t]] L; [lia|lia|reflexivity]|]. split.
  - intros R. assert (forall t q, (t < 2)%nat -> (q < 2)%nat -> plain_at lb (t, q) (if Nat.eqb q 0 then sees1 t else sets1 t)) as Pl.
    { intros t q L L'. exists O. destruct t as [|[|t]], q as [|[|q]]; try lia; (eexists; eexists; split; [reflexivity|]; split; [|reflexivity]; reflexivity). }
    assert (conflict lb (0, 0)%nat (1, 1)%nat) as Cf.
    { exists (sees1 0), (sets1 1), 0x1000. split; [apply (Pl O O); lia|]. split; [apply (Pl 1%nat 1%nat); lia|]. unfold covers. cbn. repeat split; auto; lia. }
    assert (forall p1 p2, ~ reaches lb p1 p2) as Nr.
    { intros p1 p2 [p p' H|p t q q' p' H _ _]; destruct H as (c1 & r1 & its1 & c2 & r2 & its2 & w & r & C & _); exact (lb_nocall _ _ _ _ _ C). }
    assert ((0 <> 1)%nat) as Ne by discriminate.
    destruct (df_order _ _ R _ _ Cf Ne) as [[[Q _]|(t1 & q1 & t2 & q2 & _ & H & _)]|[[Q _]|(t1 & q1 & t2 & q2 & _ & H & _)]]; try discriminate Q; exact (Nr _ _ H).
  - intros (mf & M). pose proof (lb_zero T _ _ _ M (fun _ => eq_refl) HP O) as [Q|(_ & v & _ & B & Q)]; [discriminate Q|]. discriminate Q.
Qed.
Example in_time_needed_targets : Forall (fun T => m_base (arch_mm T) false true = false) [Riscv rv64; Powerpc pp64; Aarch64 aa0].
Proof. repeat constructor. Qed.
