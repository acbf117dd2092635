(* C39: data that is free of races.  Code outside the library may share ordinary memory; if any two conflicting accesses are ordered by
   happens-before (what Rust requires of safe sharing), this memory behaves as under an interleaving of the threads. *)
From Verif Require Import SeqCst Prop_order Replay Prop_sc CallLink All_atomic Prop_mp Prop_hb Merge.
From Coq Require Import Permutation Sorted.

(* ---- specification ---- *)
(* two accesses of code outside the library that share a byte, one of them writing *)
Definition conflict (G : graph) (x y : eid) : Prop :=
  exists v u b, plain_at G x v /\ plain_at G y u /\ covers v b /\ covers u b /\ (e_w v = true \/ e_w u = true).
(* [bef]: an order that counts as synchronization *)
Record race_free (G : graph) (bef : eid -> eid -> Prop) : Prop := {
  df_order : forall x y, conflict G x y -> fst x <> fst y -> bef x y \/ bef y x;
  df_cells : forall x v b t q c r its, plain_at G x v -> covers v b -> call_at G t q c r its -> ~ in_cell c b;    (* cells are left to the library *)
  df_whole : forall x v, plain_at G x v -> e_t v = false;                                                          (* not half of a load-linked pair *)
  df_fin : exists N, forall t, (N <= t)%nat -> g_thr G t = []
}.

Section D.
Context (T : arch) (G : graph) (Ie : t_ie T = None) (W : t_wf T) (X : execution T G).
Context (bef : eid -> eid -> Prop) (HB : forall x y, bef x y -> happens_before G x y) (F : race_free G bef).
Notation Sa := (ex_sane T G X).
Definition co_irr b x : ~ g_co G b x x := Replay.co_irr T G X b x.
Definition co_asym b x y : g_co G b x y -> ~ g_co G b y x := Replay.co_asym T G X b x y.

Lemma plain_ev x v : plain_at G x v -> ev_at G x v.
Proof.
  intros (q & its & i & Hq & A & E). destruct (seg_split G _ _ _ Hq) as (pre & post & Ei & L & _). cbn [seg_its] in Ei. unfold ev_at. rewrite Ei, E, <- L. now apply nth_ctx.
Qed.
Lemma plain_fun x v u : plain_at G x v -> plain_at G x u -> v = u.
Proof. intros A B. apply plain_ev in A. apply plain_ev in B. unfold ev_at, at_ in *. congruence. Qed.
Lemma plain_solid x v : plain_at G x v -> solid G x.
Proof. intros A. exists v. split; [now apply plain_ev|]. right. left. exact (df_whole _ _ F _ _ A). Qed.
Definition dwrites (x : eid) (b : Z) : Prop := exists v, plain_at G x v /\ e_w v = true /\ covers v b.
Definition dreads (x : eid) (b : Z) : Prop := exists v, plain_at G x v /\ e_w v = false /\ covers v b.
Definition outside (b : Z) : Prop := forall t q c r its, call_at G t q c r its -> ~ in_cell c b.
Lemma dw_w x b : dwrites x b -> writes_b G x b.
Proof. intros (v & A & H). exists v. split; [now apply plain_ev|auto]. Qed.
Lemma dr_r x b : dreads x b -> reads_b G x b.
Proof. intros (v & A & H). exists v. split; [now apply plain_ev|auto]. Qed.
Lemma d_out x v b : plain_at G x v -> covers v b -> outside b.
Proof. intros A C t q c r its Hc. exact (df_cells _ _ F _ _ _ _ _ _ _ _ A C Hc). Qed.
Lemma seg_unique t q q' s s' i j : nth_error (g_thr G t) q = Some s -> nth_error (g_thr G t) q' = Some s' -> (i < length (seg_its s))%nat -> (j < length (seg_its s'))%nat ->
  (base G t q + i = base G t q' + j)%nat -> q = q'.
Proof.
  intros H H' I J E. destruct (seg_split G _ _ _ H) as (_ & _ & _ & _ & B), (seg_split G _ _ _ H') as (_ & _ & _ & _ & B').
  destruct (Nat.lt_trichotomy q q') as [L|[L|L]]; [|exact L|]; [pose proof (base_mono G t (S q) q' L)|pose proof (base_mono G t (S q') q L)]; lia.
Qed.
Lemma call_not_plain t q c r its j i x v : call_at G t q c r its -> at_ its j i -> x = (t, (base G t q + j)%nat) -> ~ plain_at G x v.
Proof.
  intros C A -> (q' & its' & i' & Hq & A' & E). cbn [fst snd] in *. assert (q = q') as <- by (apply (seg_unique t q q' _ _ j i' C Hq); auto; [exact (at_lt _ _ _ A)|exact (at_lt _ _ _ A')]).
  unfold call_at in C. congruence.
Qed.
(* a write to a byte of no cell: one of the code outside, or a call that writes back what it read there *)
Lemma d_writer b w v : outside b -> ev_at G w v -> e_w v = true -> covers v b -> plain_at G w v \/
  (forall v', ~ plain_at G w v') /\ exists y u, rmw_pair G y w /\ ev_at G y u /\ e_w u = false /\ covers u b /\ e_b v b = e_b u b.
Proof.
  intros Ob A Wv C. destruct w as [t k]. unfold ev_at, at_, items in A. cbn [fst snd] in A. destruct (flat_at _ _ _ A) as (q & s & j & Hq & Hj & E). destruct s as [c r its|its]; cbn [seg_its] in Hj.
  - right. pose proof (ex_calls T G X _ _ _ _ _ Hq) as Ci. destruct (call_fact T c its r (smp_ie T Ie) W Ci) as (m & m' & _ & _ & [D [(_ & Nw & _)|(k' & v' & Ow & Av & Un & Cv & Eb & _ & K)]]); [destruct (Nw j); exists v; auto|].
    assert (j = k') as -> by (apply Un; exists v; auto). assert (v' = v) as -> by (unfold at_ in *; congruence). destruct (is_store c) eqn:St.
    + exfalso. apply (Ob _ _ _ _ _ Hq). unfold covers_cell, covers, in_cell in *. lia.
    + split. { intros v'. apply (call_not_plain t q c r its k' v); [exact Hq|exact Hj|now rewrite E]. }
      destruct K as (i & u & Rm & Au & Ea & En & Bu). exists (t, (base G t q + i)%nat), u. assert (covers u b) as Cu by (unfold covers in *; lia).
      assert (ev_at G (t, (base G t q + i)%nat) u) as Aev by (refine (lift_ev G _ _ _ _ _ _ _ _ Hq _ _ Au); reflexivity).
      assert (e_w u = false) as Wu. { destruct Rm as (z & _ & _ & _ & _ & (u' & A' & W') & _). unfold at_ in *. congruence. }
      split; [|split; [exact Aev|split; [exact Wu|split; [exact Cu|]]]].
      * rewrite E. change (length (flat (firstn q (g_thr G t)))) with (base G t q). split; [reflexivity|]. cbn [fst snd]. destruct (seg_split G _ _ _ Hq) as (pre & post & E' & L & _). cbn [seg_its] in *. rewrite E', <- L.
        destruct Rm as (z & Z1 & Z2 & Z3 & Z4). exists z. split; [now apply nth_ctx|]. split; auto. split; auto. apply last_read_ctx; auto. apply Nat.lt_le_incl. exact (at_lt _ _ _ Z1).
      * rewrite (Bu b Cu), Eb. apply (done_only T c m m' r b D). exact (Ob _ _ _ _ _ Hq).
  - left. exists q, its, j. cbn [fst snd]. auto.
Qed.
Lemma d_acc b x : Acc (g_co G b) x.
Proof.
  destruct (df_fin _ _ F) as (N & HN). apply (fin_acc eid_dec (g_co G b) (fun x y z => co_trans _ Sa b x y z) (co_irr b) _ (flat_map (fun t => map (pair t) (List.seq 0 (length (items G t)))) (List.seq 0 N)) x (le_n _)).
  intros [t k] H. destruct (co_wf _ Sa _ _ _ H) as [(v & A & _) _]. unfold ev_at in A. cbn [fst snd] in A. apply in_flat_map. exists t. split.
  - apply in_seq. split; [lia|]. destruct (Nat.lt_ge_cases t N) as [L|L]; [exact L|]. unfold items in A. rewrite (HN t L) in A. unfold at_, flat in A. cbn in A. destruct k; discriminate A.
  - apply in_map. apply in_seq. pose proof (at_lt _ _ _ A). lia.
Qed.
(* the byte written by [w] comes from a write of the code outside *)
Definition d_origin (b : Z) (w : eid) (z : Z) : Prop :=
  (exists w1 v1, plain_at G w1 v1 /\ e_w v1 = true /\ covers v1 b /\ (w1 = w \/ g_co G b w1 w) /\ e_b v1 b = z /\ forall w2, dwrites w2 b -> g_co G b w1 w2 -> g_co G b w w2) \/
  (z = g_init G b /\ forall w2, dwrites w2 b -> g_co G b w w2).
Lemma origin_d b : outside b -> forall w v, ev_at G w v -> e_w v = true -> covers v b -> d_origin b w (e_b v b).
Proof.
  intros Ob w. induction (d_acc b w) as [w _ IH]. intros v A Wv C. destruct (d_writer b w v Ob A Wv C) as [Pl|(Np & y & u & Rm & Au & Wu & Cu & Eb)].
  - left. exists w, v. auto 10.
  - assert (reads_b G y b) as Ry by (exists u; auto). assert (writes_b G w b) as Ww by (exists v; auto).
    assert (forall w2, dwrites w2 b -> fr G b y w2 -> g_co G b w w2) as At.
    { intros w2 D2 Fr. apply (co_or T G X); auto; [now apply dw_w| |exact (atomic_rmw _ Sa _ _ _ _ Rm Fr)].
      intros ->. destruct D2 as (v2 & P2 & _). exact (Np v2 P2). }
    destruct (rf_some _ Sa _ _ _ Au Wu Cu) as [(w'' & Fw)|(N & Ei)].
    + pose proof (fr_rf G _ _ _ _ (rmw_fr T G X b y w Rm Ry Ww) Fw) as Co. destruct (rf_wf _ Sa _ _ _ Fw) as (v'' & u' & A'' & W'' & C'' & Au' & _ & _ & Ev). assert (u' = u) as -> by (unfold ev_at, at_ in *; congruence).
      assert (forall w2, dwrites w2 b -> g_co G b w'' w2 -> g_co G b w w2) as Nx.
      { intros w2 D2 C2. apply At; auto. split; [exact Ry|]. split; [now apply dw_w|]. intros w1 F1. now rewrite (rf_one _ Sa _ _ _ _ F1 Fw). }
      destruct (IH w'' Co v'' A'' W'' C'') as [(w1 & v1 & P1 & W1 & C1 & O1 & E1 & Q1)|(E1 & Q1)].
      * left. exists w1, v1. split; [exact P1|]. split; [exact W1|]. split; [exact C1|]. split; [right; destruct O1 as [->|O1]; [exact Co|exact (co_trans _ Sa _ _ _ _ O1 Co)]|]. split; [congruence|]. intros w2 D2 C2. apply Nx; auto.
      * right. split; [congruence|]. intros w2 D2. apply Nx; auto.
    + right. split; [congruence|]. intros w2 D2. apply At; auto. split; [exact Ry|]. split; [now apply dw_w|]. intros w1 F1. destruct (N _ F1).
Qed.
(* ---- conflicts ---- *)
Definition dacc (x : eid) (b : Z) : Prop := exists v, plain_at G x v /\ covers v b.
Notation unit := (eid * ev)%type.
Definition dconf (b : Z) (x y : unit) : Prop :=
  match e_w (snd x), e_w (snd y) with
  | true, true => g_co G b (fst x) (fst y)
  | false, true => fr G b (fst x) (fst y)
  | true, false => ~ fr G b (fst y) (fst x)
  | false, false => False
  end.
Definition plain_u (x : unit) : Prop := plain_at G (fst x) (snd x).
Lemma hb_back b x y : plain_u x -> plain_u y -> covers (snd x) b -> covers (snd y) b -> dconf b x y -> ~ happens_before G (fst y) (fst x).
Proof.
  destruct x as [x v], y as [y u]. unfold plain_u, dconf. cbn [fst snd]. intros Px Py Cx Cy D H. pose proof (plain_ev _ _ Px) as Vx. pose proof (plain_ev _ _ Py) as Vy.
  pose proof (hb_no_back T G Ie W X b y x u v H Vy Vx (plain_solid _ _ Py) (plain_solid _ _ Px)) as Nb. destruct (e_w v) eqn:Wv, (e_w u) eqn:Wu; [| | |destruct D].
  - apply Nb. right. left. exact D.
  - apply D. split; [exists u; auto|]. split; [exists v; auto|]. intros w0 R. apply (C37_read_write T G Ie W X y x b H (plain_solid _ _ Py) (plain_solid _ _ Px) w0 R). exists v. auto.
  - apply Nb. right. right. exact D.
Qed.
Lemma fr_decide b x y : reads_b G x b -> writes_b G y b -> fr G b x y \/ ~ fr G b x y.
Proof.
  intros R1 Ww. pose proof R1 as (u & Au & Wu & Cu). destruct (rf_some _ Sa _ _ _ Au Wu Cu) as [(w' & Fw)|(N & _)].
  - destruct (eid_dec w' y) as [->|Ne]; [right; intros Q; exact (co_irr _ _ (fr_rf G _ _ _ _ Q Fw))|].
    destruct (co_total _ Sa b w' y (proj1 (rf_ends T G X _ _ _ Fw)) Ww Ne) as [Q|Q].
    + left. split; [exact R1|]. split; [exact Ww|]. intros w'' F'. now rewrite (rf_one _ Sa _ _ _ _ F' Fw).
    + right. intros K. exact (co_asym _ _ _ Q (fr_rf G _ _ _ _ K Fw)).
  - left. split; [exact R1|]. split; [exact Ww|]. intros w'' F'. exfalso. exact (N _ F').
Qed.
Lemma dconf_total b x y : plain_u x -> plain_u y -> covers (snd x) b -> covers (snd y) b -> fst x <> fst y -> e_w (snd x) = true \/ e_w (snd y) = true -> dconf b x y \/ dconf b y x.
Proof.
  destruct x as [x v], y as [y u]. unfold plain_u, dconf. cbn [fst snd]. intros Px Py Cx Cy Ne Ww. pose proof (plain_ev _ _ Px) as Vx. pose proof (plain_ev _ _ Py) as Vy. destruct (e_w v) eqn:Wv, (e_w u) eqn:Wu.
  - apply (co_total _ Sa b); [exists v; auto|exists u; auto|exact Ne].
  - destruct (fr_decide b y x); [exists u; auto|exists v; auto|tauto|tauto].
  - destruct (fr_decide b x y); [exists v; auto|exists u; auto|tauto|tauto].
  - destruct Ww; discriminate.
Qed.
(* what must come first *)
Definition dfirst (x y : unit) : Prop := po (fst x) (fst y) \/ (fst x <> fst y /\ exists b, covers (snd x) b /\ covers (snd y) b /\ dconf b x y).
Lemma dconf_w b x y : dconf b x y -> e_w (snd x) = true \/ e_w (snd y) = true.
Proof. unfold dconf. destruct (e_w (snd x)), (e_w (snd y)); auto. Qed.
Lemma dfirst_bef x y : plain_u x -> plain_u y -> dfirst x y -> po (fst x) (fst y) \/ bef (fst x) (fst y).
Proof.
  intros Px Py [P|(Ne & b & Cx & Cy & D)]; [now left|]. destruct (Nat.eq_dec (fst (fst x)) (fst (fst y))) as [E|E].
  - destruct (Nat.lt_trichotomy (snd (fst x)) (snd (fst y))) as [L|[L|L]]; [left; split; auto| |].
    + exfalso. apply Ne. destruct (fst x), (fst y). cbn [fst snd] in *. congruence.
    + exfalso. apply (hb_back b x y Px Py Cx Cy D). left. split; [now symmetry|exact L].
  - right. destruct (df_order _ _ F (fst x) (fst y)) as [H|H]; [exists (snd x), (snd y), b; split; [exact Px|split; [exact Py|split; [exact Cx|split; [exact Cy|exact (dconf_w _ _ _ D)]]]]|exact E|exact H|].
    exfalso. exact (hb_back b x y Px Py Cx Cy D (HB _ _ H)).
Qed.
Lemma dfirst_hb x y : plain_u x -> plain_u y -> dfirst x y -> happens_before G (fst x) (fst y).
Proof. intros Px Py D. destruct (dfirst_bef x y Px Py D) as [P|B]; [now left|now apply HB]. Qed.
Lemma dfirst_asym x y : plain_u x -> plain_u y -> dfirst x y -> ~ dfirst y x.
Proof.
  intros Px Py D D'. pose proof (C37_transitive G _ _ _ (dfirst_hb _ _ Px Py D) (dfirst_hb _ _ Py Px D')) as H. exact (C37_irreflexive T G _ _ Ie W X (plain_ev _ _ Px) H).
Qed.
Lemma dfirst_dec x y : plain_u x -> plain_u y -> dfirst x y \/ ~ dfirst x y.
Proof.
  intros Px Py. destruct (eid_dec (fst x) (fst y)) as [E|Ne]; [right; intros [[_ P]|[N _]]; [rewrite E in P; lia|now apply N]|].
  assert (po (fst x) (fst y) \/ ~ po (fst x) (fst y)) as [P|Np] by (unfold po; destruct (Nat.eq_dec (fst (fst x)) (fst (fst y))), (lt_dec (snd (fst x)) (snd (fst y))); tauto); [left; now left|].
  set (b := Z.max (e_a (snd x)) (e_a (snd y))).
  assert ((covers (snd x) b /\ covers (snd y) b) \/ ~ (covers (snd x) b /\ covers (snd y) b)) as [[Cx Cy]|Nc].
  { unfold covers. destruct (Z_lt_dec b (e_a (snd x) + e_n (snd x))), (Z_lt_dec b (e_a (snd y) + e_n (snd y))); [left|right|right|right]; lia. }
  - assert ((e_w (snd x) = true \/ e_w (snd y) = true) \/ ~ (e_w (snd x) = true \/ e_w (snd y) = true)) as [Ww|Nw] by (destruct (e_w (snd x)); [left; now left|]; destruct (e_w (snd y)); [left; now right|right; intros [Q|Q]; discriminate Q]).
    + destruct (dconf_total b x y Px Py Cx Cy Ne Ww) as [D|D]; [left; right; split; [exact Ne|exists b; auto]|].
      right. apply (dfirst_asym y x Py Px). right. split; [congruence|exists b; auto].
    + right. intros [P|(_ & b' & _ & _ & D)]; [exact (Np P)|exact (Nw (dconf_w _ _ _ D))].
  - right. intros [P|(_ & b' & Cx & Cy & D)]; [exact (Np P)|]. apply Nc. unfold covers in *. lia.
Qed.

(* ---- replaying the accesses in such an order ---- *)
Definition dapply (m : mem) (u : unit) : mem := fun b => if e_w (snd u) && ((e_a (snd u) <=? b) && (b <? e_a (snd u) + e_n (snd u))) then e_b (snd u) b else m b.
Definition dmem (P : list unit) : mem := fold_left dapply P (g_init G).
Lemma dmem_snoc P u : dmem (P ++ [u]) = dapply (dmem P) u.
Proof. unfold dmem. now rewrite fold_left_app. Qed.
Lemma dapply_spec m u b : (e_w (snd u) = true /\ covers (snd u) b /\ dapply m u b = e_b (snd u) b) \/ (~ (e_w (snd u) = true /\ covers (snd u) b) /\ dapply m u b = m b).
Proof.
  unfold dapply, covers. destruct (e_w (snd u)); cbn [andb]; [|right; split; [intros [Q _]; discriminate Q|reflexivity]].
  destruct (Z.leb_spec (e_a (snd u)) b), (Z.ltb_spec b (e_a (snd u) + e_n (snd u))); cbn [andb]; [left; repeat split; lia|right; split; [lia|reflexivity]|right; split; [lia|reflexivity]|right; split; [lia|reflexivity]].
Qed.
Definition own_w (b : Z) (u : unit) : Prop := e_w (snd u) = true /\ covers (snd u) b.
Lemma dlast P b : (dmem P b = g_init G b /\ forall u, own_w b u -> ~ In u P) \/
  exists P1 u P2, P = P1 ++ u :: P2 /\ own_w b u /\ dmem P b = e_b (snd u) b /\ forall u', own_w b u' -> ~ In u' P2.
Proof.
  induction P as [|n P IH] using rev_ind; [left; split; [reflexivity|]; intros n _ []|]. rewrite dmem_snoc. destruct (dapply_spec (dmem P) n b) as [(Wn & Cn & ->)|(Nn & ->)].
  - right. exists P, n, []. split; [reflexivity|]. split; [split; auto|]. auto.
  - destruct IH as [[V N]|(P1 & n1 & P2 & -> & O & V & N)].
    + left. split; [exact V|]. intros n' O' I'. apply in_app_or in I'. destruct I' as [I'|[<-|[]]]; [exact (N n' O' I')|exact (Nn O')].
    + right. exists P1, n1, (P2 ++ [n]). split; [now rewrite <- app_assoc|]. split; [exact O|]. split; [exact V|]. intros n' O' I'. apply in_app_or in I'. destruct I' as [I'|[<-|[]]]; [exact (N n' O' I')|exact (Nn O')].
Qed.
Lemma dcut P b z : Forall plain_u P -> StronglySorted (fun a b => ~ dfirst b a) P ->
  ((exists n1, own_w b n1 /\ In n1 P /\ e_b (snd n1) b = z /\ forall n2, own_w b n2 -> In n2 P -> ~ g_co G b (fst n1) (fst n2)) \/
   (z = g_init G b /\ forall n2, own_w b n2 -> ~ In n2 P)) -> dmem P b = z.
Proof.
  intros Pl So H. rewrite Forall_forall in Pl. destruct (dlast P b) as [[V N]|(P1 & n3 & P2 & -> & O3 & V & N)].
  - destruct H as [(n1 & O1 & I1 & _)|(-> & _)]; [exfalso; exact (N n1 O1 I1)|exact V].
  - destruct H as [(n1 & O1 & I1 & <- & Mx)|(_ & Z)]; [|exfalso; apply (Z n3 O3), in_or_app; right; now left].
    assert (In n3 (P1 ++ n3 :: P2)) as I3 by (apply in_or_app; right; now left). pose proof (Pl _ I1) as L1. pose proof (Pl _ I3) as L3.
    rewrite V. pose proof I1 as I1'. apply in_app_or in I1'. destruct I1' as [I1'|[->|I1']]; [|reflexivity|exfalso; exact (N n1 O1 I1')].
    destruct (ss_app _ _ _ So) as (_ & _ & Q). specialize (Q n1 n3 I1' (or_introl eq_refl)).
    pose proof O1 as (W1 & C1). pose proof O3 as (W3 & C3). destruct (eid_dec (fst n1) (fst n3)) as [E|Ne].
    { destruct n1 as [x1 v1], n3 as [x3 v3]. cbn [fst snd] in *. subst x3. now rewrite (plain_fun x1 v1 v3 L1 L3). }
    exfalso. destruct (co_total _ Sa b (fst n1) (fst n3)) as [Z|Z]; auto.
    + apply dw_w. exists (snd n1). auto.
    + apply dw_w. exists (snd n3). auto.
    + exact (Mx n3 O3 I3 Z).
    + apply Q. right. split; [congruence|]. exists b. split; [exact C3|]. split; [exact C1|]. unfold dconf. now rewrite W3, W1.
Qed.
(* [S]: some of the accesses, and with each of them those that must come before it *)
Section S.
Context (S : list unit) (S_plain : forall u, In u S -> plain_u u) (S_first : forall u n, plain_u u -> In n S -> dfirst u n -> In u S) (So : StronglySorted (fun a b => ~ dfirst b a) S).
Section N.
Context (P : list unit) (n : unit) (Q : list unit) (ES : S = P ++ n :: Q).
Lemma dn_in : In n S.
Proof. rewrite ES. apply in_or_app. right. now left. Qed.
Lemma dP_in u : In u P -> In u S.
Proof. intros H. rewrite ES. apply in_or_app. now left. Qed.
Lemma dpos u : In u S -> dfirst u n -> In u P.
Proof.
  intros I D. pose proof I as J. rewrite ES in J. apply in_app_or in J. destruct J as [J|[<-|J]]; [exact J| |].
  - exfalso. exact (dfirst_asym n n (S_plain _ I) (S_plain _ I) D D).
  - exfalso. pose proof So as So'. rewrite ES in So'. destruct (ss_app _ _ _ So') as (_ & K & _). apply StronglySorted_inv in K. destruct K as [_ K]. rewrite Forall_forall in K. exact (K u J D).
Qed.
Lemma dneg u : dfirst n u -> ~ In u P.
Proof. intros D J. pose proof So as So'. rewrite ES in So'. destruct (ss_app _ _ _ So') as (_ & _ & K). exact (K u n J (or_introl eq_refl) D). Qed.
Lemma dreads_value b : e_w (snd n) = false -> covers (snd n) b -> dmem P b = e_b (snd n) b.
Proof.
  intros Wn Cn. pose proof (S_plain _ dn_in) as Pn. pose proof (plain_ev _ _ Pn) as An. pose proof (d_out _ _ _ Pn Cn) as Ob.
  assert (reads_b G (fst n) b) as Rn by (exists (snd n); auto).
  assert (forall n2, own_w b n2 -> In n2 S -> fst n <> fst n2) as Ne2.
  { intros [x2 v2] [W2 _] I2 E. destruct n as [x v]. cbn [fst snd] in *. subst x2. rewrite (plain_fun x v v2 Pn (S_plain _ I2)) in Wn. congruence. }
  assert (forall n2, own_w b n2 -> In n2 S -> fr G b (fst n) (fst n2) -> ~ In n2 P) as H1.
  { intros n2 O2 I2 Fr. apply dneg. right. split; [exact (Ne2 n2 O2 I2)|]. exists b. destruct O2 as [W2 C2]. split; [exact Cn|]. split; [exact C2|]. unfold dconf. now rewrite Wn, W2. }
  assert (forall n2, own_w b n2 -> In n2 S -> dwrites (fst n2) b) as Dw by (intros n2 [W2 C2] I2; exists (snd n2); split; [exact (S_plain _ I2)|auto]).
  apply dcut; [apply Forall_forall; intros u I; apply S_plain, dP_in, I|rewrite ES in So; apply (ss_app _ _ _ So)|].
  destruct (rf_some _ Sa _ _ _ An Wn Cn) as [(w' & Fw)|(N & Ei)].
  - destruct (rf_wf _ Sa _ _ _ Fw) as (v' & u' & A' & W' & C' & Au' & _ & _ & Ev). assert (u' = snd n) as -> by (unfold ev_at, at_ in *; congruence).
    assert (forall n2, own_w b n2 -> In n2 S -> g_co G b w' (fst n2) -> ~ In n2 P) as H3.
    { intros n2 O2 I2 K. apply H1; auto. split; [exact Rn|]. split; [apply dw_w; auto|]. intros w1 F1. now rewrite (rf_one _ Sa _ _ _ _ F1 Fw). }
    destruct (origin_d b Ob w' v' A' W' C') as [(w1 & v1 & P1 & W1 & C1 & O1 & E1 & Q1)|(E1 & Q1)].
    + left. exists (w1, v1). assert (dfirst (w1, v1) n) as D1; [|split; [split; auto|]; split; [|split; [cbn [snd]; congruence|]]].
      * right. split; [cbn [fst]; intros E; destruct n as [x v]; cbn [fst snd] in *; subst x; rewrite (plain_fun w1 v v1 Pn P1) in Wn; congruence|]. exists b. split; [exact C1|]. split; [exact Cn|]. unfold dconf. cbn [fst snd]. rewrite W1, Wn.
        intros Fr. pose proof (fr_rf G _ _ _ _ Fr Fw) as Co. destruct O1 as [->|O1]; [exact (co_irr _ _ Co)|exact (co_asym _ _ _ O1 Co)].
      * apply dpos; [|exact D1]. exact (S_first (w1, v1) n P1 dn_in D1).
      * intros n2 O2 I2 K. refine (H3 n2 O2 (dP_in _ I2) _ I2). apply Q1; [apply Dw; auto; exact (dP_in _ I2)|exact K].
    + right. split; [congruence|]. intros n2 O2 I2. refine (H3 n2 O2 (dP_in _ I2) _ I2). apply Q1. apply Dw; auto. exact (dP_in _ I2).
  - right. split; [congruence|]. intros n2 O2 I2. refine (H1 n2 O2 (dP_in _ I2) _ I2). split; [exact Rn|]. split; [apply dw_w, Dw; auto; exact (dP_in _ I2)|]. intros w1 F1. destruct (N _ F1).
Qed.
Lemma dstep_c : plain_step (snd n) (dmem P) (dmem (P ++ [n])).
Proof.
  unfold plain_step. rewrite dmem_snoc. destruct (e_w (snd n)) eqn:Wn.
  - intros b. destruct (dapply_spec (dmem P) n b) as [(_ & C & ->)|(N & ->)]; split; auto; [contradiction|intros C; destruct N; auto].
  - split; [intros b C; symmetry; now apply dreads_value|]. intros b. destruct (dapply_spec (dmem P) n b) as [(E & _)|(_ & ->)]; [congruence|reflexivity].
Qed.
End N.
End S.
Section A.
Context (S : list unit) (HS : forall x v, In (x, v) S <-> plain_at G x v) (So : StronglySorted (fun a b => ~ dfirst b a) S).
Lemma S_plain u : In u S -> plain_u u.
Proof. destruct u as [x v]. apply HS. Qed.
Lemma dstep P n Q : S = P ++ n :: Q -> plain_step (snd n) (dmem P) (dmem (P ++ [n])).
Proof. apply (dstep_c S S_plain); [|exact So]. intros [x v] n0 Px _ _. now apply HS. Qed.
(* the memory at the end *)
Lemma dfinal b : outside b -> ((forall w, ~ writes_b G w b) -> dmem S b = g_init G b) /\
  (forall w v, ev_at G w v -> e_w v = true -> covers v b -> (forall w', ~ g_co G b w w') -> dmem S b = e_b v b).
Proof.
  intros Ob. assert (forall n2, own_w b n2 -> In n2 S -> dwrites (fst n2) b) as Dw by (intros n2 [W2 C2] I2; exists (snd n2); split; [exact (S_plain _ I2)|auto]).
  assert (Forall plain_u S) as FS by (apply Forall_forall; exact S_plain). split.
  - intros N. apply dcut; [exact FS|exact So|]. right. split; [reflexivity|]. intros n2 O2 I2. exact (N _ (dw_w _ _ (Dw n2 O2 I2))).
  - intros w v A Wv C La. apply dcut; [exact FS|exact So|]. destruct (origin_d b Ob w v A Wv C) as [(w1 & v1 & P1 & W1 & C1 & O1 & E1 & Q1)|(E1 & Q1)].
    + left. exists (w1, v1). split; [split; auto|]. split; [now apply HS|]. split; [exact E1|]. intros n2 O2 I2 K. exact (La _ (Q1 _ (Dw n2 O2 I2) K)).
    + right. split; [exact E1|]. intros n2 O2 I2. exact (La _ (Q1 _ (Dw n2 O2 I2))).
Qed.
End A.
End D.

(* ---- theorems ---- *)
(* the accesses of the code outside the library are interleaved, each read finding what the writes before it left; the interleaving leaves in memory
   what the last writes wrote *)
Theorem C39_race_free_data T G : t_ie T = None -> t_wf T -> execution T G -> race_free G (happens_before G) ->
  exists mf, merged plain_step (fun t => plains (g_thr G t)) (g_init G) mf /\
    forall b, (forall t q c r its, call_at G t q c r its -> ~ in_cell c b) ->
      ((forall w, ~ writes_b G w b) -> mf b = g_init G b) /\
      (forall w v, ev_at G w v -> e_w v = true -> covers v b -> (forall w', ~ g_co G b w w') -> mf b = e_b v b).
Proof.
  intros Ie W X F. destruct (df_fin _ _ F) as (N & HN).
  set (K := fun t (l : list (eid * ev)) => map snd l = plains (g_thr G t) /\ Forall (fun u => plain_at G (fst u) (snd u)) l /\
    StronglySorted (fun a b => (snd (fst a) < snd (fst b))%nat) l /\ forall x v, plain_at G x v -> fst x = t -> In (x, v) l).
  destruct (collect (fun u : eid * ev => fst (fst u)) K N (fun t _ => plains_list G t)) as (L & HL & HT).
  set (th := of_thr (fun u : eid * ev => fst (fst u))) in *.
  assert (forall x v, In (x, v) L <-> plain_at G x v) as Hin.
  { intros x v. split.
    - intros I. rewrite Forall_forall in HL. destruct (HT (fst x) (HL _ I)) as (_ & Fp & _). rewrite Forall_forall in Fp. apply (Fp (x, v)). apply filter_In. split; [exact I|apply Nat.eqb_refl].
    - intros Px. destruct (Nat.lt_ge_cases (fst x) N) as [Lt|Ge]; [|destruct Px as (q & its & i & Hq & _); rewrite (HN _ Ge) in Hq; destruct q; discriminate Hq].
      destruct (HT (fst x) Lt) as (_ & _ & _ & H). specialize (H x v Px eq_refl). apply filter_In in H. apply H. }
  assert (forall u, In u L -> plain_u G u) as Hp by (intros [x v]; apply Hin).
  destruct (topo (dfirst G) (length L) L eq_refl) as (S & Pm & So).
  { intros x y Ix Iy. exact (dfirst_dec T G Ie W X _ (fun _ _ H => H) F x y (Hp _ Ix) (Hp _ Iy)). }
  { assert (forall x y, clos_trans _ (on (dfirst G) L) x y -> In x L /\ happens_before G (fst x) (fst y)) as Q.
    { intros x y H. induction H as [x y (Ix & Iy & D)|x y z _ [I1 H1] _ [I2 H2]]; [|split; [exact I1|exact (C37_transitive _ _ _ _ H1 H2)]].
      split; [exact Ix|]. exact (dfirst_hb T G Ie W X _ (fun _ _ H => H) F x y (Hp _ Ix) (Hp _ Iy) D). }
    intros x H. destruct (Q _ _ H) as [I Hx]. exact (C37_irreflexive T G _ _ Ie W X (plain_ev G _ _ (Hp _ I)) Hx). }
  assert (forall x v, In (x, v) S <-> plain_at G x v) as HS by (intros x v; rewrite <- Hin; split; apply Permutation_in; [now apply Permutation_sym|exact Pm]).
  exists (dmem G S). split.
  - pose proof (mg_replay (fun u : eid * ev => fst (fst u)) snd plain_step (dmem G) S (fun P u Q E => dstep T G Ie W X _ (fun _ _ H => H) F S HS So P u Q E) S [] eq_refl) as H.
    refine (mg_ext _ _ _ _ _ _ H). intros t. rewrite (same_threads (fun u : eid * ev => fst (fst u)) (fun u => snd (fst u)) (dfirst G) L S); auto.
    + destruct (Nat.lt_ge_cases t N) as [Lt|Ge]; [now destruct (HT t Lt) as (E & _)|]. rewrite (HN t Ge), filter_none; [reflexivity|]. eapply Forall_impl; [|exact HL]. intros u Hu. unfold of_thr. apply Nat.eqb_neq. cbv beta in Hu. lia.
    + intros a b E Lt. left. split; auto.
    + intros t'. destruct (Nat.lt_ge_cases t' N) as [Lt|Ge]; [now destruct (HT t' Lt) as (_ & _ & Q & _)|]. rewrite filter_none; [constructor|]. eapply Forall_impl; [|exact HL]. intros u Hu. unfold of_thr. apply Nat.eqb_neq. cbv beta in Hu. lia.
  - intros b Ob. exact (dfinal T G Ie W X _ F S HS So b Ob).
Qed.
