(* Interleavings are executions: if the accesses of the threads take effect one at a time, in an order [lt] that respects program order, each read
   taking every byte from the last write before it, the axioms of Graph.v hold, on every target.  (The machine axioms are satisfiable for every
   client of the library; used for the examples.) *)
From Verif Require Import SeqCst Ex_graph.

Section S.
Context (T : arch) (G : graph) (lt : eid -> eid -> Prop).
Record interleaving : Prop := {
  il_calls : forall t q c r its, call_at G t q c r its -> call_items T c its r;
  il_irr : forall x, ~ lt x x;
  il_trans : forall x y z, lt x y -> lt y z -> lt x z;
  il_tot : forall x y u v, ev_at G x u -> ev_at G y v -> x <> y -> lt x y \/ lt y x;
  il_po : forall x y, po x y -> lt x y;
  il_co : forall b x y, g_co G b x y <-> writes_b G x b /\ writes_b G y b /\ lt x y;
  il_rf : forall b w r, g_rf G b w r <-> writes_b G w b /\ reads_b G r b /\ lt w r /\ forall w', writes_b G w' b -> lt w' r -> ~ lt w w';
  il_val : forall b r u, ev_at G r u -> e_w u = false -> covers u b ->
    (exists w v, g_rf G b w r /\ ev_at G w v /\ e_b v b = e_b u b) \/ ((forall w, writes_b G w b -> ~ lt w r) /\ e_b u b = g_init G b);
  il_rmw : forall b r w w', rmw_pair G r w -> reads_b G r b -> writes_b G w' b -> lt r w' -> ~ lt w' w
}.
Context (H : interleaving).
Lemma il_co_lt b x y : g_co G b x y -> lt x y.
Proof. intros C. apply (il_co H) in C. tauto. Qed.
Lemma il_rf_lt b x y : g_rf G b x y -> lt x y.
Proof. intros C. apply (il_rf H) in C. tauto. Qed.
Lemma il_fr_lt b x y : fr G b x y -> lt x y.
Proof.
  intros (R & W & F). pose proof R as (u & U & Ru & Cu). pose proof W as (v & V & Wv & Cv).
  destruct (il_tot H x y u v U V) as [L|L]; [|exact L|]. { intros ->. unfold ev_at, at_ in *. congruence. }
  exfalso. destruct (il_val H b x u U Ru Cu) as [(w & v' & Fw & _)|[N _]]; [|exact (N y W L)].
  pose proof (proj1 (il_rf H b w x) Fw) as (_ & _ & _ & K). exact (K y W L (il_co_lt _ _ _ (F w Fw))).
Qed.
Lemma il_com_lt b x y : com G b x y -> lt x y.
Proof. intros [C|[C|C]]; [exact (il_rf_lt _ _ _ C)|exact (il_co_lt _ _ _ C)|exact (il_fr_lt _ _ _ C)]. Qed.
Lemma lt_ct (R : eid -> eid -> Prop) : (forall x y, R x y -> lt x y) -> forall x y, clos_trans _ R x y -> lt x y.
Proof. intros K x y Q. induction Q as [x y Q|x y z _ A _ B]; [auto|exact (il_trans H _ _ _ A B)]. Qed.
Lemma lt_no (R : eid -> eid -> Prop) : (forall x y, R x y -> lt x y) -> forall x, ~ clos_trans _ R x x.
Proof. intros K x Q. exact (il_irr H _ (lt_ct R K _ _ Q)). Qed.
Lemma lt_rt (R : eid -> eid -> Prop) : (forall x y, R x y -> lt x y) -> forall x y, clos_refl_trans _ R x y -> x = y \/ lt x y.
Proof. intros K x y Q. induction Q as [x y Q|x|x y z _ [->|A] _ [->|B]]; auto. right. exact (il_trans H _ _ _ A B). Qed.
Theorem il_sane : sane G.
Proof.
  constructor.
  - intros b w r F. pose proof (proj1 (il_rf H b w r) F) as (W & R & L & K). destruct W as (v & V & Wv & Cv), R as (u & U & Ru & Cu). exists v, u. repeat (split; [assumption|]).
    destruct (il_val H b r u U Ru Cu) as [(w' & v' & F' & V' & E)|[N _]]; [|destruct (N w); [exists v; auto|exact L]].
    pose proof (proj1 (il_rf H b w' r) F') as (W' & _ & L' & K'). assert (w' = w) as ->; [|unfold ev_at, at_ in *; congruence].
    destruct (Nat.eq_dec (fst w') (fst w)) as [E1|E1], (Nat.eq_dec (snd w') (snd w)) as [E2|E2]; [destruct w, w'; cbn in *; congruence| | |].
    all: exfalso; assert (w' <> w) as Ne by congruence; destruct (il_tot H w' w v' v V' V Ne) as [Q|Q]; [apply (K' w); auto; exists v; auto|exact (K w' W' L' Q)].
  - intros b w w' r F F'. pose proof (proj1 (il_rf H b w r) F) as (W & R & L & K). pose proof (proj1 (il_rf H b w' r) F') as (W' & _ & L' & K').
    destruct (Nat.eq_dec (fst w') (fst w)) as [E1|E1], (Nat.eq_dec (snd w') (snd w)) as [E2|E2]; [destruct w, w'; cbn in *; congruence| | |].
    all: exfalso; assert (w' <> w) as Ne by congruence; pose proof W as (v & V & _); pose proof W' as (v' & V' & _); destruct (il_tot H w' w v' v V' V Ne) as [Q|Q]; [exact (K' w W L Q)|exact (K w' W' L' Q)].
  - intros b r u U Ru Cu. destruct (il_val H b r u U Ru Cu) as [(w & v & F & _)|[N E]]; [left; eauto|right]. split; [|exact E].
    intros w F. pose proof (proj1 (il_rf H b w r) F) as (W & _ & L & _). exact (N w W L).
  - intros b x y C. apply (il_co H) in C. tauto.
  - intros b x y z C D. apply (il_co H) in C, D. apply (il_co H). destruct C as (C1 & C2 & C3), D as (D1 & D2 & D3). split; [exact C1|]. split; [exact D2|exact (il_trans H _ _ _ C3 D3)].
  - intros b x y A B N. pose proof A as (v & V & _). pose proof B as (u & U & _). rewrite !(il_co H). destruct (il_tot H x y v u V U N); tauto.
  - intros b. apply lt_no. intros x y [[P _]|C]; [exact (il_po H _ _ P)|exact (il_com_lt _ _ _ C)].
  - intros b r w w' R F C. apply (il_co H) in C. destruct C as (W' & _ & L). pose proof F as (Rb & _). exact (il_rmw H b r w w' R Rb W' (il_fr_lt _ _ _ F) L).
Qed.
Lemma il_tlo x y : tlo T G x y -> lt x y.
Proof. intros [E [L|L]]; apply (il_po H); [split; [exact E|exact (lo_lt _ _ _ _ L)]|exact (loc_po G x y il_sane E L)]. Qed.
Lemma il_hbs x y : hbs T G x y -> x = y \/ lt x y.
Proof. apply lt_rt. intros a b [L|[_ [k L]]]; [exact (il_tlo _ _ L)|exact (il_rf_lt _ _ _ L)]. Qed.
Lemma il_tf x y : tfence T G x y -> lt x y.
Proof. intros [E (a & b & k & _ & _ & K & _)]. apply (il_po H). split; auto. lia. Qed.
Lemma il_then x y z : lt x y -> y = z \/ lt y z -> lt x z.
Proof. intros L [<-|Q]; [exact L|exact (il_trans H _ _ _ L Q)]. Qed.
Lemma il_pb x y : prop_base T G x y -> lt x y.
Proof.
  intros (z & L & K). apply il_hbs in K. refine (il_then x z y _ K). destruct L as [L|(k & [_ [b L]] & L')]; [exact (il_tf _ _ L)|]. exact (il_trans H _ _ _ (il_rf_lt _ _ _ L) (il_tf _ _ L')).
Qed.
Lemma il_prop x y : prop T G x y -> lt x y.
Proof.
  intros [(L & _)|(z & L & k & K & l & Q & M)]; [exact (il_pb _ _ L)|].
  assert (x = z \/ lt x z) as A by (revert L; apply lt_rt; intros a b [c L]; exact (il_com_lt _ _ _ L)).
  assert (z = k \/ lt z k) as B by (revert K; apply lt_rt; exact il_pb).
  assert (lt k l) as C by (destruct Q as [E (_ & _ & n & K1 & _)]; apply (il_po H); split; auto; lia).
  apply il_hbs in M. pose proof (il_then k l y C M) as D. assert (lt z y) as E by (destruct B as [<-|B]; [exact D|exact (il_trans H _ _ _ B D)]).
  destruct A as [<-|A]; [exact E|exact (il_trans H _ _ _ A E)].
Qed.
Theorem interleaving_execution : execution T G.
Proof.
  constructor; [exact (il_calls H)|exact il_sane|]. destruct (arch_mca T).
  - unfold mca_ok. apply lt_no. intros x y [L|(_ & _ & _ & b & L)]; [exact (il_tlo _ _ L)|exact (il_com_lt _ _ _ L)].
  - constructor.
    + apply lt_no. intros x y [L|[_ [k L]]]; [exact (il_tlo _ _ L)|exact (il_rf_lt _ _ _ L)].
    + intros x (y & [_ [b F]] & z & P & Q). apply il_hbs in Q. exact (il_irr H x (il_trans H _ _ _ (il_fr_lt _ _ _ F) (il_then _ _ _ (il_prop _ _ P) Q))).
    + apply lt_no. intros x y [[b L]|L]; [exact (il_co_lt _ _ _ L)|exact (il_prop _ _ L)].
    + intros b b' x y C Wx Wy. apply (il_co H). split; [exact Wx|]. split; [exact Wy|exact (il_co_lt _ _ _ C)].
    + intros b b' x y _ F Rx Wy. split; [exact Rx|]. split; [exact Wy|]. intros w' R. pose proof (proj1 (il_rf H b' w' x) R) as (W' & _ & L & _).
      apply (il_co H). split; [exact W'|]. split; [exact Wy|exact (il_trans H _ _ _ L (il_fr_lt _ _ _ F))].
Qed.
End S.

(* ---- threads that run one after the other ---- *)
Section R.
Context (T : arch) (thr : nat -> list seg) (m0 : mem).
Definition plain_graph : graph := mkgraph thr m0 (fun _ _ _ => False) (fun _ _ _ => False).
Definition serial : graph := mkgraph thr m0
  (fun b w r => writes_b plain_graph w b /\ reads_b plain_graph r b /\ lexlt w r /\ forall w', writes_b plain_graph w' b -> lexlt w' r -> ~ lexlt w w')
  (fun b x y => writes_b plain_graph x b /\ writes_b plain_graph y b /\ lexlt x y).
Definition upd (m : mem) (v : ev) : mem := fun b => if (e_a v <=? b) && (b <? e_a v + e_n v) then e_b v b else m b.
Definition same (v : ev) (m : mem) : bool := forallb (fun i => e_b v (e_a v + Z.of_nat i) =? m (e_a v + Z.of_nat i)) (List.seq 0 (Z.to_nat (e_n v))).
(* [pr]: the last access was a read *)
Fixpoint run_items (its : list item) (m : mem) (pr : bool) : option mem :=
  match its with
  | [] => Some m
  | IE v :: l => if e_w v then if e_x v && negb pr then None else run_items l (upd m v) false else if same v m then run_items l m true else None
  | _ :: l => run_items l m pr
  end.
Fixpoint run_threads (n t : nat) (m : mem) : option mem :=
  match n with O => Some m | S n' => match run_items (items plain_graph t) m false with Some m' => run_threads n' (S t) m' | None => None end end.

Notation G := serial.
Lemma same_ok v m b : same v m = true -> covers v b -> e_b v b = m b.
Proof.
  unfold same, covers. intros H C. rewrite forallb_forall in H. specialize (H (Z.to_nat (b - e_a v))). rewrite in_seq in H.
  assert (e_a v + Z.of_nat (Z.to_nat (b - e_a v)) = b) as E by lia. rewrite E in H. apply Z.eqb_eq. apply H. lia.
Qed.
Definition mem_at (m : mem) (p : eid) : Prop := forall b,
  (exists w v, ev_at G w v /\ e_w v = true /\ covers v b /\ lexlt w p /\ (forall w', writes_b G w' b -> lexlt w' p -> ~ lexlt w w') /\ e_b v b = m b) \/
  ((forall w, writes_b G w b -> ~ lexlt w p) /\ m b = m0 b).
Lemma mem_skip m t k : mem_at m (t, k) -> (forall v, ev_at G (t, k) v -> e_w v = false) -> mem_at m (t, S k).
Proof.
  assert (forall w b, (forall v, ev_at G (t, k) v -> e_w v = false) -> writes_b G w b -> lexlt w (t, S k) -> lexlt w (t, k)) as K.
  { intros [tw kw] b N (v & V & W & _) L. unfold lexlt in *. cbn [fst snd] in *. destruct L as [L|[-> L]]; [auto|right; split; auto]. destruct (Nat.eq_dec kw k) as [->|]; [rewrite (N v V) in W; discriminate W|lia]. }
  intros H N b. destruct (H b) as [(w & v & V & W & C & L & U & E)|[U E]].
  - left. exists w, v. repeat (split; [assumption|]). split; [unfold lexlt in *; cbn [fst snd] in *; lia|]. split; [|exact E]. intros w' W' L'. apply (U w' W'). exact (K w' b N W' L').
  - right. split; [|exact E]. intros w W L. exact (U w W (K w b N W L)).
Qed.
Lemma mem_write m t k v : mem_at m (t, k) -> ev_at G (t, k) v -> e_w v = true -> mem_at (upd m v) (t, S k).
Proof.
  intros H V W b. unfold upd. destruct ((e_a v <=? b) && (b <? e_a v + e_n v)) eqn:Cb.
  - left. exists (t, k), v. assert (covers v b) as C by (unfold covers; lia). repeat (split; [assumption|]). split; [unfold lexlt; cbn [fst snd]; lia|]. split; [|reflexivity].
    intros [t' k'] _ L Q. unfold lexlt in *. cbn [fst snd] in *. lia.
  - assert (forall w, writes_b G w b -> lexlt w (t, S k) -> lexlt w (t, k)) as K.
    { intros [tw kw] (u & U & Wu & Cu) L. unfold lexlt in *. cbn [fst snd] in *. destruct L as [L|[-> L]]; [auto|right; split; auto]. destruct (Nat.eq_dec kw k) as [->|]; [|lia].
      exfalso. assert (u = v) as -> by (unfold ev_at, at_ in *; congruence). unfold covers in Cu. lia. }
    destruct (H b) as [(w & u & U & Wu & C & L & N & E)|[N E]].
    + left. exists w, u. repeat (split; [assumption|]). split; [unfold lexlt in *; cbn [fst snd] in *; lia|]. split; [|exact E]. intros w' W' L'. exact (N w' W' (K w' W' L')).
    + right. split; [|exact E]. intros w Ww L. exact (N w Ww (K w Ww L)).
Qed.
Lemma run_ok t its : forall pre m pr m', items G t = pre ++ its -> run_items its m pr = Some m' -> mem_at m (t, length pre) ->
  mem_at m' (t, length (items G t)) /\ forall k v b, (length pre <= k)%nat -> ev_at G (t, k) v -> e_w v = false -> covers v b ->
    exists mk, mem_at mk (t, k) /\ e_b v b = mk b.
Proof.
  induction its as [|x its IH]; intros pre m pr m' E R Hm.
  - cbn in R. injection R as <-. rewrite E, app_nil_r in *. split; [exact Hm|]. intros k v b Hk V. unfold ev_at in V. cbn [fst snd] in V. rewrite E in V. pose proof (at_lt _ _ _ V). lia.
  - assert (items G t = (pre ++ [x]) ++ its) as E' by (rewrite <- app_assoc; exact E). assert (length (pre ++ [x]) = S (length pre)) as El by (rewrite app_length; cbn; lia).
    assert (forall v, ev_at G (t, length pre) v -> x = IE v) as Hx. { intros v V. unfold ev_at, at_ in V. cbn [fst snd] in V. rewrite E, nth_error_app2, Nat.sub_diag in V by lia. injection V as ->. reflexivity. }
    assert (forall m1 pr1, run_items its m1 pr1 = Some m' -> mem_at m1 (t, S (length pre)) -> (forall v b, ev_at G (t, length pre) v -> e_w v = false -> covers v b -> e_b v b = m b) ->
      mem_at m' (t, length (items G t)) /\ forall k v b, (length pre <= k)%nat -> ev_at G (t, k) v -> e_w v = false -> covers v b -> exists mk, mem_at mk (t, k) /\ e_b v b = mk b) as K.
    { intros m1 pr1 R1 H1 Hr. rewrite <- El in H1. destruct (IH _ _ _ _ E' R1 H1) as [I1 I2]. split; [exact I1|]. intros k v b Hk V Wv C. destruct (Nat.eq_dec k (length pre)) as [->|]; [|apply (I2 k v b); auto; lia].
      exists m. split; [exact Hm|exact (Hr v b V Wv C)]. }
    assert ((forall v, x <> IE v) -> run_items its m pr = Some m' -> mem_at m' (t, length (items G t)) /\ forall k v b, (length pre <= k)%nat -> ev_at G (t, k) v -> e_w v = false -> covers v b -> exists mk, mem_at mk (t, k) /\ e_b v b = mk b) as K2.
    { intros N R1. apply (K m pr R1); [apply mem_skip; [exact Hm|]|]; [intros v V; destruct (N v (Hx v V))|intros v b V; destruct (N v (Hx v V))]. }
    destruct x as [v| | |]; cbn [run_items] in R; try (apply K2; [intros ? Q; discriminate Q|exact R]).
    assert (ev_at G (t, length pre) v) as V. { unfold ev_at, at_. cbn [fst snd]. rewrite E, nth_error_app2, Nat.sub_diag by lia. reflexivity. }
    destruct (e_w v) eqn:Wv.
    + destruct (e_x v && negb pr); [discriminate R|]. apply (K _ _ R); [now apply mem_write|]. intros v' b V' W'. pose proof (Hx v' V') as Q. injection Q as ->. congruence.
    + destruct (same v m) eqn:Sm; [|discriminate R]. apply (K _ _ R); [apply mem_skip; [exact Hm|]|]; [intros v' V'; pose proof (Hx v' V') as Q; injection Q as ->; exact Wv|].
      intros v' b V' W' C. pose proof (Hx v' V') as Q. injection Q as ->. exact (same_ok _ _ _ Sm C).
Qed.
Lemma run_pair its : forall m pr m', run_items its m pr = Some m' -> forall j v, at_ its j v -> e_w v = true -> e_x v = true ->
  (pr = true /\ forall k u, (k < j)%nat -> ~ at_ its k u) \/ exists i, (i < j)%nat /\ is_read its i /\ forall k u, (i < k < j)%nat -> ~ at_ its k u.
Proof.
  induction its as [|x its IH]; intros m pr m' R j v A W X; [destruct j; discriminate A|]. destruct j as [|j].
  - unfold at_ in A. injection A as ->. cbn [run_items] in R. rewrite W, X in R. destruct pr; [|discriminate R]. left. split; [reflexivity|]. intros k u L. lia.
  - assert (at_ its j v) as A' by exact A.
    assert (forall m1 pr1, run_items its m1 pr1 = Some m' -> (pr1 = true -> (exists u, x = IE u /\ e_w u = false) \/ (pr = true /\ forall u, x <> IE u)) ->
      (pr = true /\ forall k u, (k < S j)%nat -> ~ at_ (x :: its) k u) \/ exists i, (i < S j)%nat /\ is_read (x :: its) i /\ forall k u, (i < k < S j)%nat -> ~ at_ (x :: its) k u) as K.
    { intros m1 pr1 R1 Hp. destruct (IH _ _ _ R1 j v A' W X) as [[P N]|(i & Li & Ri & N)].
      - destruct (Hp P) as [(u & -> & Wu)|[Pr Nx]].
        + right. exists O. split; [lia|]. split; [exists u; split; [reflexivity|exact Wu]|]. intros k u' Hk Q. destruct k; [lia|]. apply (N k u'); [lia|exact Q].
        + left. split; [exact Pr|]. intros k u Hk Q. destruct k; [unfold at_ in Q; cbn in Q; injection Q as ->; destruct (Nx u eq_refl)|]. apply (N k u); [lia|exact Q].
      - right. exists (S i). split; [lia|]. split; [exact Ri|]. intros k u Hk Q. destruct k; [lia|]. apply (N k u); [lia|exact Q]. }
    destruct x as [w| | |]; cbn [run_items] in R; try (apply (K _ _ R); intros P; right; split; [exact P|intros ? Q; discriminate Q]).
    destruct (e_w w) eqn:Ww.
    + destruct (e_x w && negb pr); [discriminate R|]. apply (K _ _ R). intros Q. discriminate Q.
    + destruct (same w m); [|discriminate R]. apply (K _ _ R). intros _. left. eauto.
Qed.
Lemma runs_ok n : forall t m m', run_threads n t m = Some m' -> mem_at m (t, O) -> forall k, (t <= k < t + n)%nat -> exists mk mk', mem_at mk (k, O) /\ run_items (items G k) mk false = Some mk'.
Proof.
  induction n as [|n IH]; intros t m m' R H k Hk; [lia|]. cbn [run_threads] in R. destruct (run_items (items plain_graph t) m false) as [m1|] eqn:R1; [|discriminate R].
  destruct (Nat.eq_dec k t) as [->|]; [exists m, m1; auto|]. apply (IH (S t) m1 m' R); [|lia].
  destruct (run_ok t (items G t) [] m false m1 eq_refl R1 H) as [H1 _]. clear - H1. intros b.
  assert (forall w, writes_b G w b -> lexlt w (S t, O) -> lexlt w (t, length (items G t))) as K.
  { intros [tw kw] (v & V & _) L. unfold lexlt in *. cbn [fst snd] in *. destruct (Nat.eq_dec tw t) as [->|]; [right; split; [reflexivity|exact (at_lt _ _ _ V)]|left; lia]. }
  destruct (H1 b) as [(w & v & V & W & C & L & U & E)|[U E]].
  - left. exists w, v. repeat (split; [assumption|]). split; [unfold lexlt in *; cbn [fst snd] in *; lia|]. split; [|exact E]. intros w' W' L'. exact (U w' W' (K w' W' L')).
  - right. split; [|exact E]. intros w W L. exact (U w W (K w W L)).
Qed.
Theorem serial_interleaving n : (forall t q c r its, call_at G t q c r its -> call_items T c its r) -> (forall t, (n <= t)%nat -> thr t = []) -> run_threads n 0 m0 <> None -> interleaving T G lexlt.
Proof.
  intros Ca Em R. destruct (run_threads n 0 m0) as [m'|] eqn:R'; [|congruence]. clear R.
  assert (mem_at m0 (O, O)) as M0 by (intros b; right; split; [intros w _ L; unfold lexlt in L; cbn in L; lia|reflexivity]).
  assert (forall t k v, ev_at G (t, k) v -> (t < n)%nat) as Bt.
  { intros t k v V. destruct (Nat.lt_ge_cases t n) as [Q|Q]; [exact Q|]. exfalso. unfold ev_at, at_, items in V. cbn [fst snd] in V. change (g_thr G t) with (thr t) in V. rewrite (Em t Q) in V. destruct k; discriminate V. }
  constructor.
  - exact Ca.
  - intros x L. unfold lexlt in L. lia.
  - intros x y z A B. unfold lexlt in *. lia.
  - intros [t k] [t' k'] u v _ _ N. unfold lexlt. cbn [fst snd]. destruct (Nat.lt_trichotomy t t') as [Q|[->|Q]]; auto. destruct (Nat.lt_trichotomy k k') as [Q|[->|Q]]; auto. congruence.
  - intros x y [E L]. right. auto.
  - intros b x y. reflexivity.
  - intros b w r. reflexivity.
  - intros b [t k] u U Ru C. pose proof (Bt _ _ _ U) as Ht. destruct (runs_ok n 0 m0 m' R' M0 t ltac:(lia)) as (mk & mk' & Hm & Rm).
    destruct (run_ok t (items G t) [] mk false mk' eq_refl Rm Hm) as [_ K]. destruct (K k u b (Nat.le_0_l k) U Ru C) as (ml & Hl & E). destruct (Hl b) as [(w & v & V & W & Cv & L & N & E2)|[N E2]].
    + left. exists w, v. split; [|split; [exact V|congruence]]. split; [exists v; auto|]. split; [exists u; auto|]. split; [exact L|exact N].
    + right. split; [exact N|]. rewrite E. exact E2.
  - intros b [t k] [t' j] [tw kw] [F (v & A & W & X & Lr)] _ (u & U & _) L1 L2. cbn [fst snd] in *. subst t'. unfold lexlt in *. cbn [fst snd] in *. assert (tw = t) as -> by lia.
    pose proof (Bt t j v A) as Ht. destruct (runs_ok n 0 m0 m' R' M0 t ltac:(lia)) as (mk & mk' & _ & Rm). destruct (run_pair _ _ _ _ Rm j v A W X) as [[Q _]|(i & Li & Ri & N)]; [discriminate Q|].
    assert (k = i) as ->. { apply (lr_unique (items G t) j); [exact Lr|]. split; [exact Li|]. split; [exact Ri|]. intros m Hm (z & Z & _). exact (N m z Hm Z). }
    apply (N kw u); [lia|exact U].
Qed.
End R.
