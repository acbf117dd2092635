(* C38: a lock made of the calls.  A cell is 0 when free; a thread takes it by a swap(1) that reports 0 or a compare_exchange(0, 1) or
   compare_exchange_weak(0, 1) that reports Ok, with an acquiring ordering, may look at it by loads, and gives it back by store(0), with a
   releasing ordering.  Between taking and giving back everything happens as if on one processor. *)
From Verif Require Import SeqCst Prop_order Replay Prop_sc CallLink All_atomic Weak Prop_mp Prop_hb.
From Coq Require Import Relations.Operators_Properties Wellfounded.

(* ---- specification ---- *)
Definition lock_call (T : arch) (a n : Z) (c : op) : Prop :=
  (exists o, c = OSwap n o a 1 /\ acquires o = true) \/
  (exists s f, (c = OCas n s f a 0 1 \/ c = OCasWeak n s f a 0 1) /\ acquires s = true /\ cas_upper_bits T n = false).     (* C04_riscv64_refuted etc.: may fail although 0 *)
Definition unlock_call (a n : Z) (c : op) : Prop := exists o, c = OStore n o a 0 /\ releases o = true.
Definition taken (r : rval) : Prop := match r with RVal v => v = 0 | RCas _ ok => ok = true | RUnit => False end.
(* a load of at most a pointer's width (C38_load: it writes nothing; wider ones may write back what they read) *)
Definition look_call (T : arch) (a n : Z) (c : op) : Prop := exists o, c = OLoad n o a /\ 8 * n <= t_pw T.
(* thread [t] takes the lock in its [ql]-th piece and gives it back in its [qu]-th *)
Definition holds (T : arch) (G : graph) (a n : Z) (t ql qu : nat) : Prop :=
  (ql < qu)%nat /\ (exists c r its, call_at G t ql c r its /\ lock_call T a n c /\ taken r) /\ (exists c r its, call_at G t qu c r its /\ unlock_call a n c) /\
  forall q c r its, (ql < q < qu)%nat -> call_at G t q c r its -> ~ unlock_call a n c.
(* the cell is used for nothing else *)
Record lock_client (T : arch) (G : graph) (a n : Z) : Prop := {
  lk_init : forall b, a <= b < a + n -> g_init G b = 0;
  lk_writes : forall w b, a <= b < a + n -> writes_b G w b -> exists t q c r its, call_at G t q c r its /\ a_write G w t q its /\ op_cell c = (a, n);
  lk_calls : forall t q c r its, call_at G t q c r its -> op_cell c = (a, n) ->
    lock_call T a n c \/ look_call T a n c \/ (unlock_call a n c /\ exists ql, holds T G a n t ql q);
  lk_finite : exists N, forall t, (N <= t)%nat -> g_thr G t = []
}.
(* the access comes between taking and giving back *)
Definition inside (G : graph) (x : eid) (t ql qu : nat) : Prop := after G x t ql /\ before G x t qu.

(* ---- bytes of 0 and 1 ---- *)
Definition lowb (e : endian) (a n : Z) : Z := match e with LE => a | BE => a + n - 1 end.
Lemma byteof_0 i : byteof 0 i = 0.
Proof. unfold byteof. now rewrite Z.shiftr_0_l. Qed.
Lemma byteof_1 i : 0 <= i -> byteof 1 i = if i =? 0 then 1 else 0.
Proof.
  intros H. unfold byteof. destruct (Z.eqb_spec i 0) as [->|N]; [reflexivity|]. rewrite Z.shiftr_div_pow2 by lia. rewrite Z.div_small; [reflexivity|]. split; [lia|].
  apply Z.pow_gt_1; lia.
Qed.
Lemma wr_zero e m a n b : a <= b < a + n -> wr e m a n 0 b = 0.
Proof. intros H. unfold wr. destruct ((a <=? b) && (b <? a + n)) eqn:E; [apply byteof_0|]. apply andb_false_iff in E. destruct E; lia. Qed.
Lemma wr_one e m a n b : a <= b < a + n -> wr e m a n 1 b = if b =? lowb e a n then 1 else 0.
Proof.
  intros H. unfold wr. destruct ((a <=? b) && (b <? a + n)) eqn:E; [|apply andb_false_iff in E; destruct E; lia].
  rewrite byteof_1 by (destruct e; cbn; lia). destruct e; cbn [boff lowb]; destruct (Z.eqb_spec b a); destruct (Z.eqb_spec b (a + n - 1)); repeat match goal with |- context [?x =? ?y] => destruct (Z.eqb_spec x y) end; lia.
Qed.
Lemma rd_zero e a n : 0 <= n -> rd e (fun _ => 0) a n = 0.
Proof.
  intros H. rewrite (rd_ext e (fun _ => 0) (wr e (fun _ => 0) a n 0) a n); [rewrite rd_wr_any by lia; unfold low; apply Z.mod_0_l, Z.pow_nonzero; lia|].
  intros i Hi. symmetry. apply wr_zero. lia.
Qed.
Lemma rd_0_bytes e m a n : wf_mem m -> 0 <= n -> rd e m a n = 0 -> forall b, a <= b < a + n -> m b = 0.
Proof.
  intros W Pn H b Hb. rewrite <- (rd_zero e a n Pn) in H. pose proof (rd_inj e m (fun _ => 0) a n W ltac:(intros x; lia) Pn H (b - a) ltac:(lia)) as Q. now replace (a + (b - a)) with b in Q by lia.
Qed.
Lemma rd_n0_byte e m a n : 0 <= n -> rd e m a n <> 0 -> (forall b, a <= b < a + n -> b <> lowb e a n -> m b = 0) -> m (lowb e a n) <> 0.
Proof.
  intros Pn H K E. apply H. rewrite <- (rd_zero e a n Pn). apply rd_ext. intros i Hi. destruct (Z.eq_dec (a + i) (lowb e a n)) as [Q|Q]; [now rewrite Q|apply K; lia].
Qed.

(* a strict order on finitely many accesses is well founded *)
Lemma acc_finite (R : eid -> eid -> Prop) : (forall x, ~ R x x) -> (forall x y z, R x y -> R y z -> R x z) ->
  forall n L x, length L = n -> (forall y, R y x -> In y L) -> Acc R x.
Proof.
  intros Ir Tr. assert (forall x y : eid, {x = y} + {x <> y}) as Dec by (decide equality; apply Nat.eq_dec).
  induction n as [n IH] using lt_wf_ind. intros L x E H. constructor. intros y Y.
  apply (IH (length (remove Dec y L))) with (L := remove Dec y L); [rewrite <- E; exact (remove_length_lt Dec L y (H y Y))|reflexivity|].
  intros z Z. apply in_in_remove; [intros ->; exact (Ir y Z)|]. apply H. exact (Tr _ _ _ Z Y).
Qed.

Section P.
Context (T : arch) (G : graph) (a n : Z) (Ie : t_ie T = None) (W : t_wf T) (X : execution T G) (K : lock_client T G a n).
Notation Sa := (ex_sane T G X).
Notation e := (t_e T).
Notation b0 := (lowb e a n).
Definition cellb (b : Z) : Prop := a <= b < a + n.

Lemma co_irr b x : ~ g_co G b x x.
Proof. intros H. apply (com_irr T G X b x). right. left. exact H. Qed.
Lemma co_acc b x : Acc (g_co G b) x.
Proof.
  destruct (lk_finite _ _ _ _ K) as (N & HN). apply (acc_finite (g_co G b) (co_irr b) (co_trans _ Sa b) _ (flat_map (fun t => map (pair t) (List.seq 0 (length (items G t)))) (List.seq 0 N)) x eq_refl).
  intros [t k] H. destruct (co_wf _ Sa _ _ _ H) as [(v & A & _) _]. unfold ev_at in A. cbn [fst snd] in A. apply in_flat_map. exists t. split.
  - apply in_seq. split; [lia|]. destruct (Nat.lt_ge_cases t N) as [L|L]; [exact L|]. unfold items in A. rewrite (HN t L) in A. unfold at_, flat in A. cbn in A. destruct k; discriminate A.
  - apply in_map. apply in_seq. pose proof (at_lt _ _ _ A). lia.
Qed.
Lemma cell_pos c : (lock_call T a n c \/ unlock_call a n c) -> op_cell c = (a, n).
Proof. intros [[(o & -> & _)|(s & f & [->| ->] & _)]|(o & -> & _)]; reflexivity. Qed.
Lemma n_pos t q c r its : call_at G t q c r its -> op_cell c = (a, n) -> 0 < n.
Proof. intros C E. pose proof (ex_calls T G X _ _ _ _ _ C) as Ci. destruct Ci as [f os s0 its' sf r' Ar _ I _ _ _ _ _ _]. pose proof (impl_pos _ _ _ I) as Q. rewrite E in Q. exact Q. Qed.
Lemma lift_rmw t q c r its i k : call_at G t q c r its -> rmw its i k -> rmw_pair G (t, (base G t q + i)%nat) (t, (base G t q + k)%nat).
Proof.
  intros C (z & Z1 & Z2 & Z3 & Z4). split; [reflexivity|]. cbn [fst snd]. destruct (seg_split _ _ _ _ C) as (pre & post & E' & L & _). cbn [seg_its] in *. rewrite E', <- L.
  exists z. split; [now apply nth_ctx|]. split; auto. split; auto. apply last_read_ctx; auto. apply Nat.lt_le_incl. exact (at_lt _ _ _ Z1).
Qed.
(* one taking call: it writes 1, taking only if it has read 0; or it fails having read something else; or it fails and writes nothing *)
Lemma lock_done c its r : lock_call T a n c -> call_items T c its r -> exists m m', wf_mem m /\ wf_mem m' /\ call_at_once T c r its m m' /\
  ((meq m' (wr e m a n 1) /\ (taken r -> rd e m a n = 0 /\ acquires (eff c r) = true)) \/ (~ taken r /\ rd e m a n <> 0 /\ meq m' m) \/ (~ taken r /\ forall k, ~ is_write its k)).
Proof.
  intros Lc Ci. destruct Lc as [(o & -> & Ao)|(s & f & [->| ->] & Ao & Cb)].
  - destruct (call_fact T _ its r (smp_ie T Ie) W Ci) as (m & m' & Wm & Wm' & At). exists m, m'. split; [exact Wm|]. split; [exact Wm'|]. split; [exact At|]. pose proof (ao_done _ _ _ _ _ _ At) as D.
    destruct r as [r| |r ok]; cbn [op_done op_spec] in D; try contradiction D. destruct D as [-> D]. left. split; [exact D|]. intros Tk. split; [exact Tk|exact Ao].
  - destruct (call_fact T _ its r (smp_ie T Ie) W Ci) as (m & m' & Wm & Wm' & At). exists m, m'. split; [exact Wm|]. split; [exact Wm'|]. split; [exact At|]. pose proof (ao_done _ _ _ _ _ _ At) as D.
    destruct r as [r| |r ok]; cbn [op_done op_spec] in D; try contradiction D. rewrite Cb in D. destruct D as [D1 D2]. cbn [fst snd] in *.
    destruct ok; [left; split; [apply D2|]; intros _; split; [apply D2|exact Ao]|right; left; split; [discriminate|exact D2]].
  - destruct (call_fact T _ its r (smp_ie T Ie) W Ci) as (m & m' & Wm & Wm' & At). pose proof (ao_done _ _ _ _ _ _ At) as D. destruct r as [r| |r ok]; cbn [op_done op_spec] in D; try contradiction D.
    destruct (weak_calls _ _ _ _ _ _ _ _ _ _ Ci) as [Cs|Nw].
    + clear At D m m' Wm Wm'. destruct (call_fact T _ its _ (smp_ie T Ie) W Cs) as (m & m' & Wm & Wm' & [D A]). exists m, m'. split; [exact Wm|]. split; [exact Wm'|]. cbn [op_done op_spec] in D. rewrite Cb in D.
      split; [split; [exact (cas_casw _ _ _ _ _ _ _ _ D)|exact A]|]. destruct D as [D1 D2]. cbn [fst snd] in *.
      destruct ok; [left; split; [apply D2|]; intros _; split; [apply D2|exact Ao]|right; left; split; [discriminate|exact D2]].
    + exists m, m'. split; [exact Wm|]. split; [exact Wm'|]. split; [exact At|]. destruct D as [D1 D2]. cbn [fst snd] in *.
      destruct ok; [left; split; [apply D2|]; intros _; split; [apply D2|exact Ao]|right; right; split; [discriminate|exact (Nw eq_refl)]].
Qed.
(* what a taking call writes: 1, or back what it has read, which is not 0; and it reads and writes as one *)
Lemma lock_writes t q c r its w : call_at G t q c r its -> lock_call T a n c -> a_write G w t q its ->
  exists v x u, ev_at G w v /\ e_w v = true /\ covers_cell v c /\ the_read G x t q its /\ rmw_pair G x w /\ ev_at G x u /\ e_w u = false /\ covers_cell u c /\
    ((forall b, cellb b -> e_b v b = if b =? b0 then 1 else 0) \/
     (~ taken r /\ (forall b, cellb b -> e_b v b = e_b u b) /\ exists m, wf_mem m /\ rd e m a n <> 0 /\ forall b, cellb b -> e_b u b = m b)).
Proof.
  intros C Lc Aw. pose proof (cell_pos c (or_introl Lc)) as Ec. pose proof (n_pos _ _ _ _ _ C Ec) as Pn. assert (is_store c = false) as N by (destruct Lc as [(o & -> & _)|(s & f & [->| ->] & _)]; reflexivity).
  pose proof (ex_calls T G X _ _ _ _ _ C) as Ci. destruct (lock_done c its r Lc Ci) as (m & m' & Wm & Wm' & [_ A] & D).
  destruct Aw as (Fw & k0 & Ek & Wk). assert ((meq m' (wr e m a n 1) /\ (taken r -> rd e m a n = 0 /\ acquires (eff c r) = true)) \/ (~ taken r /\ rd e m a n <> 0 /\ meq m' m)) as D' by (destruct D as [D|[D|[_ D]]]; [left; exact D|right; exact D|destruct (D _ Wk)]). clear D. destruct A as [(_ & Nw & _)|(k & v & Ow & Av & Un & Cv & Eb & _ & A)]; [destruct (Nw _ Wk)|]. rewrite (Un _ Wk) in Ek. clear Wk k0. rewrite N in A.
  destruct A as (i & u & Rw & Au & Ea & En & Eu). assert (w = (t, (base G t q + k)%nat)) as -> by (destruct w; cbn [fst snd] in *; congruence).
  exists v, (t, (base G t q + i)%nat), u. assert (covers_cell u c) as Cu by (unfold covers_cell in *; rewrite Ea, En; exact Cv).
  split; [refine (lift_ev G _ _ _ _ _ _ _ _ C _ _ Av); reflexivity|]. split. { destruct Ow as (_ & (z & Az & Wz) & _). unfold at_ in *. congruence. }
  split; [exact Cv|]. split; [split; [reflexivity|]; exists i; split; [reflexivity|]; left; exists k; split; [exact Ow|]; destruct Rw as (? & _ & _ & _ & Q); exact Q|].
  split; [exact (lift_rmw _ _ _ _ _ _ _ C Rw)|]. split; [refine (lift_ev G _ _ _ _ _ _ _ _ C _ _ Au); reflexivity|].
  split. { destruct Rw as (? & _ & _ & _ & _ & (z & Az & Wz) & _). unfold at_ in *. congruence. }
  split; [exact Cu|]. assert (forall b, cellb b -> cov u b) as Hc by (intros b Hb; unfold covers_cell, cov, cellb in *; rewrite Ec in Cu; cbn [fst snd] in Cu; lia).
  destruct D' as [(E1 & _)|(E1 & E2 & E3)].
  - left. intros b Hb. rewrite Eb, E1. exact (wr_one e m a n b Hb).
  - right. split; [exact E1|]. split; [intros b Hb; rewrite Eb, E3; symmetry; apply Eu, Hc, Hb|]. exists m. split; [exact Wm|]. split; [exact E2|]. intros b Hb. apply Eu, Hc, Hb.
Qed.
(* taking writes, having read 0 *)
Lemma lock_takes t q c r its : call_at G t q c r its -> lock_call T a n c -> taken r ->
  exists w v x u, a_write G w t q its /\ ev_at G w v /\ e_w v = true /\ covers_cell v c /\ the_read G x t q its /\ rmw_pair G x w /\ ev_at G x u /\ e_w u = false /\ covers_cell u c /\
    (forall b, cellb b -> e_b u b = 0) /\ acquires (eff c r) = true /\ forall y, a_write G y t q its -> y = w.
Proof.
  intros C Lc Tk. pose proof (cell_pos c (or_introl Lc)) as Ec. pose proof (n_pos _ _ _ _ _ C Ec) as Pn. assert (is_store c = false) as N by (destruct Lc as [(o & -> & _)|(s & f & [->| ->] & _)]; reflexivity).
  pose proof (ex_calls T G X _ _ _ _ _ C) as Ci. destruct (lock_done c its r Lc Ci) as (m & m' & Wm & Wm' & [_ A] & D).
  assert (rd e m a n = 0 /\ meq m' (wr e m a n 1) /\ acquires (eff c r) = true) as (E0 & E1 & Aq).
  { destruct D as [[D1 D2]|[[D _]|[D _]]]; [|contradiction|contradiction]. destruct (D2 Tk). auto. }
  pose proof (rd_0_bytes e m a n Wm ltac:(lia) E0) as Z0. assert (cellb b0) as Hb0 by (unfold cellb; destruct e; cbn; lia).
  destruct A as [(_ & _ & -> & _)|(k & v & Ow & Av & Un & Cv & Eb & _ & A)].
  { exfalso. pose proof (E1 b0) as Q. rewrite wr_one, Z.eqb_refl, Z0 in Q by exact Hb0. discriminate Q. }
  rewrite N in A. destruct A as (i & u & Rw & Au & Ea & En & Eu). exists (t, (base G t q + k)%nat), v, (t, (base G t q + i)%nat), u.
  assert (covers_cell u c) as Cu by (unfold covers_cell in *; rewrite Ea, En; exact Cv). pose proof Ow as (_ & (z & Az & Wz) & _). assert (z = v) as -> by (unfold at_ in *; congruence).
  split; [split; [reflexivity|]; exists k; split; [reflexivity|]; exists v; auto|]. split; [refine (lift_ev G _ _ _ _ _ _ _ _ C _ _ Av); reflexivity|]. split; [exact Wz|].
  split; [exact Cv|]. split; [split; [reflexivity|]; exists i; split; [reflexivity|]; left; exists k; split; [exact Ow|]; destruct Rw as (? & _ & _ & _ & Q); exact Q|].
  split; [exact (lift_rmw _ _ _ _ _ _ _ C Rw)|]. split; [refine (lift_ev G _ _ _ _ _ _ _ _ C _ _ Au); reflexivity|].
  split. { destruct Rw as (? & _ & _ & _ & _ & (z & Az' & Wz') & _). unfold at_ in *. congruence. }
  split; [exact Cu|]. split; [intros b Hb; rewrite Eu; [exact (Z0 b Hb)|unfold covers_cell, cov, cellb in *; rewrite Ec in Cu; cbn [fst snd] in Cu; lia]|]. split; [exact Aq|].
  intros [t' s'] (F & j & E & Wj). cbn [fst snd] in *. rewrite (Un j Wj) in E. congruence.
Qed.
Lemma unlock_writes t q c r its : call_at G t q c r its -> unlock_call a n c ->
  exists w v, a_write G w t q its /\ ev_at G w v /\ e_w v = true /\ (forall b, cellb b -> covers v b /\ e_b v b = 0) /\ forall y, a_write G y t q its -> y = w.
Proof.
  intros C (o & -> & _). pose proof (ex_calls T G X _ _ _ _ _ C) as Ci. destruct (call_fact T _ its r (smp_ie T Ie) W Ci) as (m & m' & Wm & Wm' & [D [(F & _)|(k & v & Ow & Av & Un & Cv & Eb & _)]]); [discriminate F|].
  exists (t, (base G t q + k)%nat), v. pose proof Ow as (_ & (z & Az & Wz) & _). assert (z = v) as -> by (unfold at_ in *; congruence).
  split; [split; [reflexivity|]; exists k; split; [reflexivity|]; exists v; auto|]. split; [refine (lift_ev G _ _ _ _ _ _ _ _ C _ _ Av); reflexivity|]. split; [exact Wz|].
  split.
  - intros b Hb. unfold covers_cell, covers, cellb in *. cbn [op_cell fst snd] in Cv. split; [lia|]. unfold op_done in D. destruct r; cbn [op_spec] in D; try contradiction D. rewrite Eb, (D b). now apply wr_zero.
  - intros [t' s'] (F & j & E & Wj). cbn [fst snd] in *. rewrite (Un j Wj) in E. congruence.
Qed.

(* ---- the values that are ever written ---- *)
Lemma writer w v b : cellb b -> ev_at G w v -> e_w v = true -> covers v b ->
  (exists t q c r its, call_at G t q c r its /\ lock_call T a n c /\ a_write G w t q its) \/
  (exists t q c r its ql, call_at G t q c r its /\ unlock_call a n c /\ a_write G w t q its /\ holds T G a n t ql q).
Proof.
  intros Hb A Wv Cv. destruct (lk_writes _ _ _ _ K w b Hb ltac:(exists v; auto)) as (t & q & c & r & its & C & Aw & Ec).
  destruct (lk_calls _ _ _ _ K _ _ _ _ _ C Ec) as [L|[(o & -> & Sz)|[U (ql & H)]]]; [left; exists t, q, c, r, its; auto| |right; exists t, q, c, r, its, ql; auto].
  exfalso. destruct Aw as (_ & k & _ & Wk). exact (load_calls _ _ _ _ _ _ (smp_ie T Ie) W Sz (ex_calls T G X _ _ _ _ _ C) k Wk).
Qed.
Lemma unlock_zero t q c r its w v b : call_at G t q c r its -> unlock_call a n c -> a_write G w t q its -> ev_at G w v -> cellb b -> e_b v b = 0.
Proof.
  intros C U Aw A Hb. destruct (unlock_writes _ _ _ _ _ C U) as (w' & v' & Aw' & A' & _ & Z & Un). rewrite (Un w Aw) in A. assert (v = v') as -> by (unfold ev_at, at_ in *; congruence). now apply Z.
Qed.
Lemma covc v c b : op_cell c = (a, n) -> covers_cell v c -> cellb b -> covers v b.
Proof. intros E H Hb. unfold covers_cell, covers, cellb in *. rewrite E in H. cbn [fst snd] in H. lia. Qed.
Lemma high_zero b : cellb b -> b <> b0 -> forall w, Acc (g_co G b) w -> forall v, ev_at G w v -> e_w v = true -> covers v b -> e_b v b = 0.
Proof.
  intros Hb Nb. induction 1 as [w _ IH]. intros v A Wv Cv. destruct (writer w v b Hb A Wv Cv) as [(t & q & c & r & its & C & Lc & Aw)|(t & q & c & r & its & ql & C & U & Aw & _)].
  - destruct (lock_writes _ _ _ _ _ _ C Lc Aw) as (v' & x & u & A' & _ & Cv' & _ & Rp & Au & Wu & Cu & D). assert (v' = v) as -> by (unfold ev_at, at_ in *; congruence).
    pose proof (cell_pos c (or_introl Lc)) as Ec. destruct D as [D|(_ & D & _)]; rewrite (D b Hb); [now rewrite (proj2 (Z.eqb_neq _ _) Nb)|].
    pose proof (covc _ _ _ Ec Cu Hb) as Cub. pose proof (rmw_fr T G X b x w Rp ltac:(exists u; auto) ltac:(exists v; auto)) as (_ & _ & F).
    destruct (rf_some _ Sa b x u Au Wu Cub) as [(w' & R)|[_ E]]; [|rewrite E; apply (lk_init _ _ _ _ K); exact Hb].
    destruct (rf_wf _ Sa _ _ _ R) as (z & u' & Az & Wz & Cz & Au' & _ & _ & E). assert (u' = u) as -> by (unfold ev_at, at_ in *; congruence). rewrite <- E. exact (IH w' (F w' R) z Az Wz Cz).
  - exact (unlock_zero _ _ _ _ _ _ _ _ C U Aw A Hb).
Qed.
Lemma read_high x u b : ev_at G x u -> e_w u = false -> covers u b -> cellb b -> b <> b0 -> e_b u b = 0.
Proof.
  intros Au Wu Cu Hb Nb. destruct (rf_some _ Sa b x u Au Wu Cu) as [(w' & R)|[_ E]]; [|rewrite E; apply (lk_init _ _ _ _ K); exact Hb].
  destruct (rf_wf _ Sa _ _ _ R) as (z & u' & Az & Wz & Cz & Au' & _ & _ & E). assert (u' = u) as -> by (unfold ev_at, at_ in *; congruence). rewrite <- E. exact (high_zero b Hb Nb w' (co_acc b w') z Az Wz Cz).
Qed.
Definition is_unlock (w : eid) : Prop := exists t q c r its ql, call_at G t q c r its /\ unlock_call a n c /\ a_write G w t q its /\ holds T G a n t ql q.
Lemma low_val : cellb b0 -> forall w, Acc (g_co G b0) w -> forall v, ev_at G w v -> e_w v = true -> covers v b0 -> e_b v b0 = 1 \/ (e_b v b0 = 0 /\ is_unlock w).
Proof.
  intros Hb. induction 1 as [w _ IH]. intros v A Wv Cv. destruct (writer w v b0 Hb A Wv Cv) as [(t & q & c & r & its & C & Lc & Aw)|(t & q & c & r & its & ql & C & U & Aw & H)].
  - left. destruct (lock_writes _ _ _ _ _ _ C Lc Aw) as (v' & x & u & A' & _ & Cv' & _ & Rp & Au & Wu & Cu & D). assert (v' = v) as -> by (unfold ev_at, at_ in *; congruence).
    pose proof (cell_pos c (or_introl Lc)) as Ec. destruct D as [D|(_ & D & m & Wm & Nz & Em)]; rewrite (D b0 Hb); [now rewrite Z.eqb_refl|].
    assert (e_b u b0 <> 0) as Nb0.
    { rewrite (Em b0 Hb). apply rd_n0_byte; [pose proof (n_pos _ _ _ _ _ C Ec); lia|exact Nz|]. intros b Hb' Nb. rewrite <- (Em b Hb'). exact (read_high x u b Au Wu (covc _ _ _ Ec Cu Hb') Hb' Nb). }
    pose proof (covc _ _ _ Ec Cu Hb) as Cub. pose proof (rmw_fr T G X b0 x w Rp ltac:(exists u; auto) ltac:(exists v; auto)) as (_ & _ & F).
    destruct (rf_some _ Sa b0 x u Au Wu Cub) as [(w' & R)|[_ E]]; [|elim Nb0; rewrite E; apply (lk_init _ _ _ _ K); exact Hb].
    destruct (rf_wf _ Sa _ _ _ R) as (z & u' & Az & Wz & Cz & Au' & _ & _ & E). assert (u' = u) as -> by (unfold ev_at, at_ in *; congruence). rewrite <- E in *.
    destruct (IH w' (F w' R) z Az Wz Cz) as [Q|[Q _]]; [exact Q|congruence].
  - right. split; [exact (unlock_zero _ _ _ _ _ _ _ _ C U Aw A Hb)|]. exists t, q, c, r, its, ql. auto.
Qed.

(* ---- taking and giving back, as accesses ---- *)
Definition takes (t q : nat) (l x : eid) : Prop := exists c r its v u, call_at G t q c r its /\ lock_call T a n c /\ taken r /\ is_store c = false /\ acquires (eff c r) = true /\
  a_write G l t q its /\ the_read G x t q its /\ rmw_pair G x l /\ ev_at G l v /\ e_w v = true /\ covers v b0 /\ e_b v b0 = 1 /\ ev_at G x u /\ e_w u = false /\ covers u b0 /\ e_b u b0 = 0.
Definition gives (t q : nat) (w : eid) : Prop := exists c r its v, call_at G t q c r its /\ unlock_call a n c /\ a_write G w t q its /\ ev_at G w v /\ e_w v = true /\ covers v b0 /\ e_b v b0 = 0 /\
  forall y, a_write G y t q its -> y = w.
Lemma take t q c r its : call_at G t q c r its -> lock_call T a n c -> taken r -> exists l x, takes t q l x.
Proof.
  intros C Lc Tk. pose proof (cell_pos c (or_introl Lc)) as Ec. pose proof (n_pos _ _ _ _ _ C Ec) as Pn. assert (cellb b0) as Hb by (unfold cellb; destruct e; cbn; lia).
  destruct (lock_takes _ _ _ _ _ C Lc Tk) as (l & v & x & u & Aw & Av & Wv & Cv & Tr & Rp & Au & Wu & Cu & Z & Aq & _). exists l, x, c, r, its, v, u.
  split; [exact C|]. split; [exact Lc|]. split; [exact Tk|]. split; [destruct Lc as [(o & -> & _)|(s & f & [->| ->] & _)]; reflexivity|]. split; [exact Aq|]. split; [exact Aw|]. split; [exact Tr|]. split; [exact Rp|].
  split; [exact Av|]. split; [exact Wv|]. split; [exact (covc _ _ _ Ec Cv Hb)|]. split.
  - destruct (lock_writes _ _ _ _ _ _ C Lc Aw) as (v' & _ & _ & A' & _ & _ & _ & _ & _ & _ & _ & [D|(Q & _)]); [|contradiction]. assert (v' = v) as -> by (unfold ev_at, at_ in *; congruence). rewrite (D b0 Hb). now rewrite Z.eqb_refl.
  - split; [exact Au|]. split; [exact Wu|]. split; [exact (covc _ _ _ Ec Cu Hb)|exact (Z b0 Hb)].
Qed.
Lemma give t q c r its : call_at G t q c r its -> unlock_call a n c -> exists w, gives t q w.
Proof.
  intros C U. assert (op_cell c = (a, n)) as Ec by (apply cell_pos; auto). pose proof (n_pos _ _ _ _ _ C Ec) as Pn. assert (cellb b0) as Hb by (unfold cellb; destruct e; cbn; lia).
  destruct (unlock_writes _ _ _ _ _ C U) as (w & v & Aw & Av & Wv & Z & Un). exists w, c, r, its, v. destruct (Z b0 Hb). auto 10.
Qed.
Lemma takes_w t q l x : takes t q l x -> writes_b G l b0 /\ reads_b G x b0 /\ cellb b0.
Proof.
  intros (c & r & its & v & u & C & Lc & _ & _ & _ & _ & _ & _ & Av & Wv & Cv & _ & Au & Wu & Cu & _). split; [exists v; auto|]. split; [exists u; auto|].
  pose proof (n_pos _ _ _ _ _ C (cell_pos c (or_introl Lc))). unfold cellb; destruct e; cbn; lia.
Qed.
Lemma gives_w t q w : gives t q w -> writes_b G w b0.
Proof. intros (c & r & its & v & _ & _ & _ & A & Wv & Cv & _). exists v; auto. Qed.
Lemma vals t q l x t' q' w : takes t q l x -> gives t' q' w -> l <> w.
Proof.
  intros (c & r & its & v & u & _ & _ & _ & _ & _ & _ & _ & _ & Av & _ & _ & V1 & _) (c' & r' & its' & v' & _ & _ & _ & Av' & _ & _ & V0 & _) ->.
  assert (v' = v) as -> by (unfold ev_at, at_ in *; congruence). congruence.
Qed.
Lemma a_write_pos w t q c r its t' q' c' r' its' : call_at G t q c r its -> call_at G t' q' c' r' its' -> a_write G w t q its -> a_write G w t' q' its' -> t = t' /\ q = q'.
Proof.
  intros C C' (F & i & E & Wi) (F' & i' & E' & Wi'). assert (t' = t) as -> by congruence. split; [reflexivity|].
  pose proof (call_range G _ _ _ _ _ _ C (write_lt _ _ Wi)). pose proof (call_range G _ _ _ _ _ _ C' (write_lt _ _ Wi')).
  destruct (lt_eq_lt_dec q q') as [[L|L]|L]; [|exact L|]; exfalso; [pose proof (base_mono G t (S q) q' L)|pose proof (base_mono G t (S q') q L)]; lia.
Qed.
(* a critical section *)
Definition sec (t ql qu : nat) (l x w : eid) : Prop := holds T G a n t ql qu /\ takes t ql l x /\ gives t qu w.
Lemma sec_of t ql qu : holds T G a n t ql qu -> exists l x w, sec t ql qu l x w.
Proof.
  intros H. pose proof H as (_ & (c & r & its & C & Lc & Tk) & (c' & r' & its' & C' & U) & _). destruct (take _ _ _ _ _ C Lc Tk) as (l & x & Tx), (give _ _ _ _ _ C' U) as (w & Gw).
  exists l, x, w. split; auto.
Qed.
Lemma sec_co t ql qu l x w : sec t ql qu l x w -> g_co G b0 l w.
Proof.
  intros (H & Tk & Gv). pose proof (takes_w _ _ _ _ Tk) as (Wl & _ & _). pose proof (gives_w _ _ _ Gv) as Ww. apply (co_or T G X); auto; [intros E; exact (vals _ _ _ _ _ _ _ Tk Gv (eq_sym E))|].
  intros Q. assert (com G b0 w l) as Cm by (right; left; exact Q). apply (com_po T G X _ _ _ Cm). destruct H as (L & _). destruct Tk as (c & r & its & v & u & C & _ & _ & _ & _ & (F & i & E & Wi) & _), Gv as (c' & r' & its' & v' & C' & _ & (F' & i' & E' & Wi') & _).
  split; [congruence|]. pose proof (call_range G _ _ _ _ _ _ C (write_lt _ _ Wi)). pose proof (call_range G _ _ _ _ _ _ C' (write_lt _ _ Wi')). pose proof (base_mono G t (S ql) qu L). lia.
Qed.
(* the section a read of 0 comes from *)
Lemma source t q l x : takes t q l x ->
  (exists p t3 l3 u3 e3 x3, g_rf G b0 p x /\ sec t3 l3 u3 e3 x3 p) \/ (forall w, ~ g_rf G b0 w x).
Proof.
  intros Tk. pose proof (takes_w _ _ _ _ Tk) as (_ & _ & Hb). destruct Tk as (c & r & its & v & u & C & Lc & _ & _ & _ & _ & _ & _ & _ & _ & _ & _ & Au & Wu & Cu & V0).
  destruct (rf_some _ Sa b0 x u Au Wu Cu) as [(p & R)|[N _]]; [left|right; exact N]. destruct (rf_wf _ Sa _ _ _ R) as (z & u' & Az & Wz & Cz & Au' & _ & _ & E). assert (u' = u) as -> by (unfold ev_at, at_ in *; congruence).
  destruct (low_val Hb p (co_acc b0 p) z Az Wz Cz) as [Q|[_ (t3 & q3 & c3 & r3 & its3 & ql & C3 & U3 & Aw & H)]]; [congruence|]. destruct (sec_of _ _ _ H) as (e3 & x3 & w3 & S3).
  exists p, t3, ql, q3, e3, x3. split; [exact R|]. replace p with w3; [exact S3|]. symmetry. destruct S3 as (_ & _ & (c' & r' & its' & v' & C' & _ & _ & _ & _ & _ & _ & Un)). apply Un.
  unfold call_at in *. assert (its3 = its') as <- by (rewrite C3 in C'; injection C'; auto). exact Aw.
Qed.
Lemma takes_rmw t q l x : takes t q l x -> rmw_pair G x l.
Proof. intros (c & r & its & v & u & _ & _ & _ & _ & _ & _ & _ & Rp & _). exact Rp. Qed.
(* nothing comes between the write a taking call reads and its own *)
Lemma no_between t q l x z : takes t q l x -> writes_b G z b0 -> (forall p, g_rf G b0 p x -> g_co G b0 p z) -> ~ g_co G b0 z l.
Proof. intros Tk Wz H. apply (atomic_rmw _ Sa b0 x l z (takes_rmw _ _ _ _ Tk)). split; [apply (takes_w _ _ _ _ Tk)|]. split; [exact Wz|exact H]. Qed.
Lemma takes_fun t q t' q' l x x' : takes t q l x -> takes t' q' l x' -> t = t' /\ q = q'.
Proof. intros (c & r & its & v & u & C & _ & _ & _ & _ & Aw & _) (c' & r' & its' & v' & u' & C' & _ & _ & _ & _ & Aw' & _). exact (a_write_pos _ _ _ _ _ _ _ _ _ _ _ C C' Aw Aw'). Qed.
Lemma sec_fun t ql qu l x w t' ql' qu' x' w' : sec t ql qu l x w -> sec t' ql' qu' l x' w' -> t = t' /\ ql = ql' /\ qu = qu' /\ w = w'.
Proof.
  intros (H & Tk & Gv) (H' & Tk' & Gv'). destruct (takes_fun _ _ _ _ _ _ _ Tk Tk') as [<- <-]. split; auto. split; auto.
  destruct H as (L & _ & (c & r & its & C & U) & Nb), H' as (L' & _ & (c' & r' & its' & C' & U') & Nb'). destruct (lt_eq_lt_dec qu qu') as [[Q|Q]|Q]; [exfalso; exact (Nb' _ _ _ _ (conj L Q) C U)| |exfalso; exact (Nb _ _ _ _ (conj L' Q) C' U')].
  subst qu'. split; auto. destruct Gv as (c1 & r1 & its1 & v1 & C1 & _ & A1 & _), Gv' as (c2 & r2 & its2 & v2 & C2 & _ & _ & _ & _ & _ & _ & Un). apply Un. unfold call_at in *. assert (its1 = its2) as <- by (rewrite C1 in C2; injection C2; auto). exact A1.
Qed.
(* no one takes the lock between a taking and the giving back *)
Lemma exclusion l' : Acc (g_co G b0) l' -> forall t ql qu l x w t' q' x', sec t ql qu l x w -> takes t' q' l' x' -> g_co G b0 l l' -> ~ g_co G b0 l' w.
Proof.
  induction 1 as [l' _ IH]. intros t ql qu l x w t' q' x' Sc Tk C1 C2. pose proof Sc as (_ & Tl & _). pose proof (takes_w _ _ _ _ Tl) as (Wl & _ & _).
  destruct (source _ _ _ _ Tk) as [(p & t3 & ql3 & qu3 & l3 & x3 & R & S3)|N]; [|refine (no_between _ _ _ _ l Tk Wl _ C1); intros p Q; destruct (N p Q)].
  pose proof S3 as (_ & Tl3 & G3). pose proof (gives_w _ _ _ G3) as Wp. pose proof (takes_w _ _ _ _ Tl3) as (Wl3 & _ & _).
  assert (forall p', g_rf G b0 p' x' -> p' = p) as Up by (intros p' R'; exact (rf_one _ Sa _ _ _ _ R' R)).
  assert (g_co G b0 l p) as Lp.
  { apply (co_or T G X); auto; [intros Q; exact (vals _ _ _ _ _ _ _ Tl G3 (eq_sym Q))|]. intros Q. refine (no_between _ _ _ _ l Tk Wl _ C1). intros p' R'. rewrite (Up p' R'). exact Q. }
  assert (g_co G b0 p l') as Pl by (apply (rmw_fr T G X b0 x' l' (takes_rmw _ _ _ _ Tk)); try apply (takes_w _ _ _ _ Tk); exact R).
  pose proof (sec_co _ _ _ _ _ _ S3) as L3p. destruct (eid_dec l3 l) as [->|Ne].
  - destruct (sec_fun _ _ _ _ _ _ _ _ _ _ _ Sc S3) as (_ & _ & _ & <-). exact (co_irr b0 w (co_trans _ Sa _ _ _ _ Pl C2)).
  - destruct (co_total _ Sa b0 l3 l Wl3 Wl Ne) as [Q|Q].
    + exact (IH l C1 _ _ _ _ _ _ _ _ _ S3 Tl Q Lp).
    + apply (IH l3 (co_trans _ Sa _ _ _ _ L3p Pl) _ _ _ _ _ _ _ _ _ Sc Tl3 Q). exact (co_trans _ Sa _ _ _ _ (co_trans _ Sa _ _ _ _ L3p Pl) C2).
Qed.
(* who takes the lock later synchronizes with all who had it before *)
Lemma ordered l2 : Acc (g_co G b0) l2 -> forall t1 ql1 qu1 l1 x1 w1 t2 q2 x2, sec t1 ql1 qu1 l1 x1 w1 -> takes t2 q2 l2 x2 -> g_co G b0 l1 l2 -> reaches G (t1, qu1) (t2, q2).
Proof.
  induction 1 as [l2 _ IH]. intros t1 ql1 qu1 l1 x1 w1 t2 q2 x2 Sc Tk C1. pose proof Sc as (_ & Tl & Gw). pose proof (takes_w _ _ _ _ Tl) as (Wl & _ & _). pose proof (gives_w _ _ _ Gw) as Ww.
  destruct (source _ _ _ _ Tk) as [(p & t3 & ql3 & qu3 & l3 & x3 & R & S3)|N]; [|exfalso; refine (no_between _ _ _ _ l1 Tk Wl _ C1); intros p Q; destruct (N p Q)].
  pose proof S3 as (H3 & Tl3 & G3). pose proof (gives_w _ _ _ G3) as Wp. pose proof (takes_w _ _ _ _ Tl3) as (Wl3 & _ & _).
  assert (forall p', g_rf G b0 p' x2 -> p' = p) as Up by (intros p' R'; exact (rf_one _ Sa _ _ _ _ R' R)).
  assert (syncs G (t3, qu3) (t2, q2)) as Sy.
  { destruct G3 as (c & r & its & v & C & U & Aw & _), Tk as (c' & r' & its' & v' & u' & C' & _ & _ & N & Aq & _ & Tr & _). exists c, r, its, c', r', its', p, x2. cbn [fst snd].
    split; [exact C|]. split; [destruct U as (o & -> & Ro); exact Ro|]. split; [exact Aw|]. split; [exact C'|]. split; [exact N|]. split; [exact Aq|]. split; [exact Tr|]. exact (sync_rf G b0 p x2 R). }
  assert (g_co G b0 p l2) as Pl by (apply (rmw_fr T G X b0 x2 l2 (takes_rmw _ _ _ _ Tk)); try apply (takes_w _ _ _ _ Tk); exact R).
  assert (g_co G b0 w1 l2) as W12.
  { pose proof (takes_w _ _ _ _ Tk) as (Wl2 & _ & _). apply (co_or T G X); auto; [exact (vals _ _ _ _ _ _ _ Tk Gw)|]. exact (exclusion l2 (co_acc b0 l2) _ _ _ _ _ _ _ _ _ Sc Tk C1). }
  pose proof (sec_co _ _ _ _ _ _ S3) as L3p. destruct (eid_dec l3 l1) as [->|Ne].
  - destruct (sec_fun _ _ _ _ _ _ _ _ _ _ _ Sc S3) as (-> & _ & -> & _). exact (re_one G _ _ Sy).
  - destruct (co_total _ Sa b0 l3 l1 Wl3 Wl Ne) as [Q|Q].
    + exfalso. apply (exclusion l1 (co_acc b0 l1) _ _ _ _ _ _ _ _ _ S3 Tl Q). apply (co_or T G X); auto; [intros Z; exact (vals _ _ _ _ _ _ _ Tl G3 (eq_sym Z))|].
      intros Z. refine (no_between _ _ _ _ l1 Tk Wl _ C1). intros p' R'. rewrite (Up p' R'). exact Z.
    + pose proof (IH l3 (co_trans _ Sa _ _ _ _ L3p Pl) _ _ _ _ _ _ _ _ _ Sc Tl3 Q) as Re. apply (reaches_trans G _ t3 ql3 qu3 _ Re); [destruct H3; lia|]. exact (re_one G _ _ Sy).
Qed.
End P.

(* ---- theorems ---- *)
(* a load of at most a pointer's width writes nothing *)
Theorem C38_load T n o a its r : t_ie T = None -> t_wf T -> 8 * n <= t_pw T -> call_items T (OLoad n o a) its r -> forall k, ~ is_write its k.
Proof. intros Ie W L Ci. exact (load_calls _ _ _ _ _ _ (smp_ie T Ie) W L Ci). Qed.
Section C38.
Context (T : arch) (G : graph) (a n : Z) (Ie : t_ie T = None) (W : t_wf T) (X : execution T G) (K : lock_client T G a n).
(* of two critical sections one ends, in synchronization order, before the other begins *)
Theorem C38_ordered t1 l1 u1 t2 l2 u2 : holds T G a n t1 l1 u1 -> holds T G a n t2 l2 u2 -> (t1, l1) <> (t2, l2) ->
  reaches G (t1, u1) (t2, l2) \/ reaches G (t2, u2) (t1, l1).
Proof.
  intros H1 H2 Ne. destruct (sec_of T G a n Ie W X _ _ _ H1) as (e1 & x1 & w1 & S1), (sec_of T G a n Ie W X _ _ _ H2) as (e2 & x2 & w2 & S2).
  pose proof S1 as (_ & T1 & _). pose proof S2 as (_ & T2 & _). pose proof (takes_w T G a n X _ _ _ _ T1) as (W1 & _). pose proof (takes_w T G a n X _ _ _ _ T2) as (W2 & _).
  assert (e1 <> e2) as Nx. { intros ->. apply Ne. destruct (takes_fun T G a n _ _ _ _ _ _ _ T1 T2) as [-> ->]. reflexivity. }
  destruct (co_total _ (ex_sane _ _ X) _ e1 e2 W1 W2 Nx) as [Q|Q].
  - left. exact (ordered T G a n Ie W X K e2 (co_acc T G a n X K _ e2) _ _ _ _ _ _ _ _ _ S1 T2 Q).
  - right. exact (ordered T G a n Ie W X K e1 (co_acc T G a n X K _ e1) _ _ _ _ _ _ _ _ _ S2 T1 Q).
Qed.
(* so everything in the one happens before everything in the other *)
Theorem C38_mutual_exclusion t1 l1 u1 t2 l2 u2 : holds T G a n t1 l1 u1 -> holds T G a n t2 l2 u2 -> (t1, l1) <> (t2, l2) ->
  (forall x y, inside G x t1 l1 u1 -> inside G y t2 l2 u2 -> happens_before G x y) \/
  (forall x y, inside G x t1 l1 u1 -> inside G y t2 l2 u2 -> happens_before G y x).
Proof.
  intros H1 H2 Ne. destruct (C38_ordered _ _ _ _ _ _ H1 H2 Ne) as [R|R]; [left|right]; intros x y [Ax Bx] [Ay By]; right.
  - exists t1, u1, t2, l2. auto.
  - exists t2, u2, t1, l1. auto.
Qed.
End C38.
