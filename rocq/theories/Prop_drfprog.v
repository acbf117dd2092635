(* C41: sequential consistency for race-free programs.  Whether a program has races need only be asked of its interleavings: if no interleaving of the
   program has one, no multi-core target gives it any other behaviour. *)
From Verif Require Import SeqCst Prop_order Replay Prop_sc CallLink All_atomic Prop_mp Prop_hb Merge Prop_drf Prop_drfsc Cut Mark.
From Coq Require Import Permutation Sorted.

(* ---- specification ---- *)
(* [P t h]: thread [t] can have done [h] so far, given the results in [h] *)
Definition all_sc (c : op) : Prop := match c with OLoad _ o _ | OStore _ o _ _ | OSwap _ o _ _ => o = SeqCst | OCas _ s f _ _ _ | OCasWeak _ s f _ _ _ => s = SeqCst /\ f = SeqCst end.
Record sc_program (P : nat -> list act -> Prop) : Prop := {
  pg_pre : forall t h h', P t (h ++ h') -> P t h;
  pg_sc : forall t h c r, P t h -> In (ACall c r) h -> all_sc c;
  pg_cells : forall t h c r t' h' c' r', P t h -> In (ACall c r) h -> P t' h' -> In (ACall c' r') h' -> op_cell c = op_cell c' \/ disjoint (op_cell c) (op_cell c');
  pg_apart : forall t h c r t' h' v b, P t h -> In (ACall c r) h -> P t' h' -> In (AMem v) h' -> covers v b -> ~ in_cell c b;   (* cells are left to the library *)
  pg_whole : forall t h v, P t h -> In (AMem v) h -> e_t v = false                                                            (* not half of a load-linked pair *)
}.
(* in no interleaving of the program, with actions that do what [step] says, are two threads about to make conflicting accesses *)
Definition sc_race_free (step : act -> mem -> mem -> Prop) (P : nat -> list act -> Prop) (m0 : mem) : Prop :=
  forall H mf, merged step H m0 mf -> (forall t, P t (H t)) ->
  forall t1 t2 v1 v2 b, t1 <> t2 -> P t1 (H t1 ++ [AMem v1]) -> P t2 (H t2 ++ [AMem v2]) -> covers v1 b -> covers v2 b -> e_w v1 = false /\ e_w v2 = false.
(* the threads make their accesses in the order of the program and nothing is read before it is written: nothing comes out of thin air.
   [f x]: when [x] is done; a call is one step. *)
Definition exists_at (G : graph) (x : eid) : Prop := (snd x < length (items G (fst x)))%nat.
Definition in_call (G : graph) (x : eid) (t q : nat) : Prop := fst x = t /\ (exists c r its, call_at G t q c r its) /\ (base G t q <= snd x < base G t (S q))%nat.
Record in_time (G : graph) (f : eid -> nat) : Prop := {
  it_order : forall x y, exists_at G x -> exists_at G y -> po x y -> (f x <= f y)%nat;
  it_call : forall x y t q, in_call G x t q -> in_call G y t q -> f x = f y;
  it_step : forall x y, exists_at G x -> exists_at G y -> f x = f y -> x = y \/ exists t q, in_call G x t q /\ in_call G y t q;
  it_rf : forall b w r, g_rf G b w r -> (f w <= f r)%nat
}.

(* ---- machinery ---- *)
Lemma all_sc_rel c : all_sc c -> releases (weff c) = true.
Proof. destruct c; cbn; intros H; first [rewrite H; reflexivity|destruct H as [H _]; rewrite H; reflexivity]. Qed.
Lemma all_sc_tot c r : all_sc c -> total_order (eff c r) = true.
Proof. destruct c; cbn; intros H; first [rewrite H; reflexivity|destruct H as [H1 H2]; rewrite H1, H2; destruct r as [| |? []]; reflexivity]. Qed.
Lemma call_in G t q c r its : call_at G t q c r its -> In (ACall c r) (acts (g_thr G t)).
Proof. intros C. unfold acts. apply in_flat_map. exists (Call c r its). split; [exact (nth_error_In _ _ C)|now left]. Qed.
Lemma accs_in its v : In (IE v) its -> In v (accs its).
Proof. intros I. unfold accs. apply in_flat_map. exists (IE v). split; [exact I|now left]. Qed.
Lemma code_in G t q its v : nth_error (g_thr G t) q = Some (Code its) -> In (IE v) its -> In (AMem v) (acts (g_thr G t)).
Proof. intros C I. unfold acts. apply in_flat_map. exists (Code its). split; [exact (nth_error_In _ _ C)|]. apply in_map. now apply accs_in. Qed.
Lemma plain_in G x v : plain_at G x v -> In (AMem v) (acts (g_thr G (fst x))).
Proof. intros (q & its & i & Hq & A & _). exact (code_in G _ q its v Hq (nth_error_In _ _ A)). Qed.
(* lists *)
Fixpoint thr (g : nat -> bool) (m : nat) : nat := match m with O => O | S m => if g m then S m else thr g m end.
Lemma thr_le g m : (thr g m <= m)%nat.
Proof. induction m as [|m IH]; cbn; [lia|]. destruct (g m); lia. Qed.
Lemma thr_in g m i : (i < m)%nat -> g i = true -> (i < thr g m)%nat.
Proof. induction m as [|m IH]; intros L H; [lia|]. cbn. destruct (g m) eqn:E; [lia|]. destruct (Nat.eq_dec i m) as [->|Ne]; [congruence|]. apply IH; [lia|exact H]. Qed.
Lemma thr_out g m i : (i < thr g m)%nat -> exists j, (i <= j < m)%nat /\ g j = true.
Proof. induction m as [|m IH]; cbn; intros H; [lia|]. destruct (g m) eqn:E; [exists m; split; [lia|exact E]|]. destruct (IH H) as (j & L & K). exists j. split; [lia|exact K]. Qed.
Lemma spre_plain l l' : spre l l' -> forall q its i v, nth_error l' q = Some (Code its) -> at_ its i v -> (length (flat (firstn q l')) + i < length (flat l))%nat ->
  exists its0, nth_error l q = Some (Code its0) /\ at_ its0 i v /\ firstn q l = firstn q l'.
Proof.
  induction 1 as [l|s l l' H IH|its its' l]; intros q its0 i v Hq A Lt.
  - cbn in Lt. lia.
  - destruct q as [|q]; cbn in Hq |- *; [injection Hq as ->; eauto|]. unfold flat in Lt. cbn [firstn map concat] in Lt. rewrite !app_length in Lt. destruct (IH q its0 i v Hq A) as (its1 & B & C & D); [unfold flat; lia|].
    exists its1. split; [exact B|]. split; [exact C|]. now rewrite D.
  - unfold flat in Lt. cbn [map concat seg_its] in Lt. rewrite app_nil_r in Lt. destruct q as [|q].
    + cbn in Hq. injection Hq as <-. cbn in Lt. exists its. split; [reflexivity|]. split; [|reflexivity]. unfold at_ in *. now rewrite nth_error_app1 in A by lia.
    + exfalso. cbn [firstn map concat seg_its] in Lt. rewrite !app_length in Lt. lia.
Qed.
Lemma cutl_next l : forall q its i v, nth_error l q = Some (Code its) -> at_ its i v -> exists h, acts l = acts (cutl (length (flat (firstn q l)) + i) l) ++ AMem v :: h.
Proof.
  induction l as [|s l IH]; intros q its i v Hq A; [destruct q; discriminate Hq|]. destruct q as [|q].
  - cbn in Hq. injection Hq as ->. cbn [firstn flat map concat length Nat.add cutl]. unfold flat. cbn [map concat length Nat.add]. pose proof (at_lt _ _ _ A) as Lt. rewrite (proj2 (Nat.leb_gt _ _)) by lia.
    destruct (nth_error_split _ _ A) as (a & c & -> & <-). rewrite firstn_app, Nat.sub_diag, firstn_all. cbn [firstn]. rewrite app_nil_r. exists (map AMem (accs c) ++ acts l). unfold acts. cbn [flat_map].
    rewrite accs_app. change (accs (IE v :: c)) with (v :: accs c). rewrite map_app, app_nil_r, <- !app_assoc. reflexivity.
  - cbn in Hq. destruct (IH q its i v Hq A) as (h & E). exists h. unfold flat. cbn [firstn map concat]. rewrite app_length. change (concat (map seg_its (firstn q l))) with (flat (firstn q l)). rewrite <- Nat.add_assoc.
    destruct s as [c r its0|its0]; cbn [seg_its cutl]; rewrite (proj2 (Nat.leb_le _ _)) by lia; replace (length its0 + (length (flat (firstn q l)) + i) - length its0)%nat with (length (flat (firstn q l)) + i)%nat by lia;
      unfold acts in *; cbn [flat_map]; rewrite E, app_assoc; reflexivity.
Qed.
Lemma ct_plain_back G G' x v : cut G G' -> plain_at G' x v -> kept G x -> plain_at G x v.
Proof.
  intros K (q & its & i & Hq & A & E) Kx. unfold kept, items in Kx. rewrite E in Kx. destruct (spre_plain _ _ (ct_thr _ _ K (fst x)) q its i v Hq A Kx) as (its0 & B & C & D).
  exists q, its0, i. split; [exact B|]. split; [exact C|]. unfold base in *. now rewrite D.
Qed.

Section P.
Context (T : arch) (P : nat -> list act -> Prop) (G : graph) (f : eid -> nat) (Ie : t_ie T = None) (W : t_wf T) (Pg : sc_program P) (RF : sc_race_free (act_step T) P (g_init G)) (X : execution T G)
  (HP : forall t, P t (acts (g_thr G t))) (N : nat) (HN : forall t, (N <= t)%nat -> g_thr G t = []) (It : in_time G f).
Definition len (n t : nat) : nat := thr (fun i => Nat.ltb (f (t, i)) n) (length (items G t)).
Lemma len_spec n x : (snd x < len n (fst x))%nat <-> exists_at G x /\ (f x < n)%nat.
Proof.
  unfold exists_at. destruct x as [t i]. cbn [fst snd]. unfold len. split.
  - intros H. destruct (thr_out _ _ _ H) as (j & L & E). apply Nat.ltb_lt in E. split; [lia|]. destruct (Nat.eq_dec i j) as [->|Ne]; [exact E|].
    assert (f (t, i) <= f (t, j))%nat; [|lia]. apply (it_order G f It); [unfold exists_at; cbn; lia|unfold exists_at; cbn; lia|split; cbn; [reflexivity|lia]].
  - intros [L E]. apply thr_in; [exact L|]. now apply Nat.ltb_lt.
Qed.
Lemma len_le n t : (len n t <= length (items G t))%nat.
Proof. apply thr_le. Qed.
Lemma len_mono n m t : (n <= m)%nat -> (len n t <= len m t)%nat.
Proof.
  intros H. destruct (Nat.le_gt_cases (len n t) (len m t)) as [L|L]; [exact L|]. exfalso. destruct (proj1 (len_spec n (t, len m t)) L) as [E F]. pose proof (proj2 (len_spec m (t, len m t)) (conj E (Nat.lt_le_trans _ _ _ F H))) as Q. exact (Nat.lt_irrefl _ Q).
Qed.
Lemma call_ex t q c r its i : call_at G t q c r its -> (i < length its)%nat -> exists_at G (t, (base G t q + i)%nat) /\ in_call G (t, (base G t q + i)%nat) t q.
Proof.
  intros C L. destruct (seg_split G _ _ _ C) as (pre & post & E & Lp & B). cbn [seg_its] in *. split.
  - unfold exists_at. cbn [fst snd]. rewrite E, !app_length. lia.
  - split; [reflexivity|]. split; [eauto|]. cbn [snd]. lia.
Qed.
Lemma len_aligned n t : aligned (len n t) (g_thr G t).
Proof.
  intros q c r its C. destruct (Nat.le_gt_cases (len n t) (base G t q)) as [L|L]; [now left|right]. destruct (Nat.le_gt_cases (base G t q + length its) (len n t)) as [L'|L']; [exact L'|]. exfalso.
  destruct (call_ex t q c r its 0 C ltac:(lia)) as [E1 I1]. destruct (call_ex t q c r its (len n t - base G t q) C ltac:(lia)) as [E2 I2]. pose proof (it_call G f It _ _ _ _ I1 I2) as Ef.
  pose proof (proj1 (len_spec n (t, (base G t q + 0)%nat)) ltac:(cbn [fst snd]; lia)) as [_ F1]. rewrite Ef in F1. pose proof (proj2 (len_spec n (t, (base G t q + (len n t - base G t q))%nat)) (conj E2 F1)) as F2. cbn [fst snd] in F2. lia.
Qed.
Definition inn (n : nat) (x : eid) : Prop := (snd x < len n (fst x))%nat.
Definition upto (n : nat) : graph := {| g_thr := fun t => cutl (len n t) (g_thr G t); g_init := g_init G;
  g_rf := fun b x y => g_rf G b x y /\ inn n x /\ inn n y; g_co := fun b x y => g_co G b x y /\ inn n x /\ inn n y |}.
Lemma upto_len n t : length (items (upto n) t) = len n t.
Proof. exact (cutl_len (g_thr G t) (len n t) (len_aligned n t) (len_le n t)). Qed.
Lemma upto_kept n x : kept (upto n) x <-> exists_at G x /\ (f x < n)%nat.
Proof. unfold kept. rewrite upto_len. apply len_spec. Qed.
Lemma upto_inn n x : kept (upto n) x <-> inn n x.
Proof. unfold kept. now rewrite upto_len. Qed.
Lemma rf_ex b w r : g_rf G b w r -> exists_at G w /\ exists_at G r.
Proof. intros H. destruct (rf_wf _ (ex_sane _ _ X) _ _ _ H) as (v & u & A & _ & _ & B & _). split; [exact (at_lt _ _ _ A)|exact (at_lt _ _ _ B)]. Qed.
Lemma upto_all n : cut (upto n) G.
Proof.
  constructor.
  - intros t. apply cutl_spre.
  - reflexivity.
  - intros b x y. rewrite !upto_inn. reflexivity.
  - intros b x y. rewrite !upto_inn. reflexivity.
  - intros b w r H Kr. apply upto_kept in Kr. apply upto_kept. split; [exact (proj1 (rf_ex _ _ _ H))|]. pose proof (it_rf G f It _ _ _ H). lia.
Qed.
Lemma upto_more n m : (n <= m)%nat -> cut (upto n) (upto m).
Proof.
  intros H. assert (forall x, inn n x -> inn m x) as Mo by (intros x; unfold inn; pose proof (len_mono n m (fst x) H); lia). constructor.
  - intros t. apply cutl_mono. now apply len_mono.
  - reflexivity.
  - intros b x y. rewrite !upto_inn. cbn [g_rf upto]. split; [intros (A & B & C); auto 10|tauto].
  - intros b x y. rewrite !upto_inn. cbn [g_co upto]. split; [intros (A & B & C); auto 10|tauto].
  - intros b w r (F & _ & _) Kr. exact (ct_closed _ _ (upto_all n) b w r F Kr).
Qed.
Lemma upto_exec n : execution T (upto n).
Proof. exact (ct_execution _ _ (upto_all n) T X). Qed.
Lemma upto_P n t : P t (acts (g_thr (upto n) t)).
Proof. destruct (spre_acts _ _ (ct_thr _ _ (upto_all n) t)) as (h & E). apply (pg_pre _ Pg t _ h). rewrite <- E. apply HP. Qed.
Lemma prog_client (G' : graph) : (forall t, P t (acts (g_thr G' t))) -> (exists N, forall t, (N <= t)%nat -> g_thr G' t = []) -> sc_client G'.
Proof.
  intros HP' Fin. constructor.
  - intros t q c r its C. apply all_sc_tot. exact (pg_sc _ Pg t _ c r (HP' t) (call_in _ _ _ _ _ _ C)).
  - intros t q its v b t' q' c r its' C I _ Cv C'. exact (pg_apart _ Pg _ _ _ _ _ _ _ _ (HP' t') (call_in _ _ _ _ _ _ C') (HP' t) (code_in _ _ _ _ _ C I) Cv).
  - intros t q c r its t' q' c' r' its' C C'. exact (pg_cells _ Pg _ _ _ _ _ _ _ _ (HP' t) (call_in _ _ _ _ _ _ C) (HP' t') (call_in _ _ _ _ _ _ C')).
  - exact Fin.
Qed.
Lemma upto_fin n : exists N, forall t, (N <= t)%nat -> g_thr (upto n) t = [].
Proof. exists N. intros t H. cbn. now rewrite (HN t H). Qed.
Lemma prog_free (G' : graph) : (forall t, P t (acts (g_thr G' t))) -> (exists N, forall t, (N <= t)%nat -> g_thr G' t = []) ->
  (forall x y, conflict G' x y -> fst x <> fst y -> sc_happens_before G' x y \/ sc_happens_before G' y x) -> race_free G' (sc_happens_before G').
Proof.
  intros HP' Fin H. constructor; [exact H| | |exact Fin].
  - intros x v b t q c r its Px Cv C. exact (pg_apart _ Pg _ _ _ _ _ _ _ _ (HP' t) (call_in _ _ _ _ _ _ C) (HP' (fst x)) (plain_in _ _ _ Px) Cv).
  - intros x v Px. exact (pg_whole _ Pg _ _ _ (HP' (fst x)) (plain_in _ _ _ Px)).
Qed.
Lemma plain_ex x v : plain_at G x v -> exists_at G x.
Proof. intros Px. exact (at_lt _ _ _ (plain_ev G _ _ Px)). Qed.
Lemma plain_call x v t q : plain_at G x v -> ~ in_call G x t q.
Proof.
  intros (q' & its' & i & Hq & A & E) (Et & (c & r & its & C) & L1 & L2). subst t. destruct (seg_split G _ _ _ C) as (_ & _ & _ & _ & B). cbn [seg_its] in B. destruct (Nat.lt_trichotomy q q') as [Q|[<-|Q]].
  - pose proof (base_mono G (fst x) (S q) q' Q). lia.
  - unfold call_at in C. congruence.
  - destruct (seg_split G _ _ _ Hq) as (_ & _ & _ & _ & B'). cbn [seg_its] in B'. pose proof (base_mono G (fst x) (S q') q Q). pose proof (at_lt _ _ _ A). lia.
Qed.
Lemma plain_upto n x v : plain_at G x v -> (f x < n)%nat -> plain_at (upto n) x v.
Proof. intros Px L. apply (ct_plain_back _ _ _ _ (upto_all n) Px). apply upto_kept. split; [exact (plain_ex _ _ Px)|exact L]. Qed.
Lemma plain_f n x v : plain_at (upto n) x v -> plain_at G x v /\ (f x < n)%nat.
Proof. intros Px. split; [exact (ct_plain _ _ (upto_all n) _ _ Px)|]. assert (kept (upto n) x) as K by exact (at_lt _ _ _ (plain_ev _ _ _ Px)). now apply upto_kept in K. Qed.
(* the next access of a thread *)
Lemma plain_next n y v : plain_at G y v -> f y = n -> snd y = len n (fst y) /\ exists h, acts (g_thr G (fst y)) = acts (g_thr (upto n) (fst y)) ++ AMem v :: h.
Proof.
  intros Py Ef. assert (snd y = len n (fst y)) as E.
  { pose proof (plain_ex _ _ Py) as Ey. destruct (Nat.lt_trichotomy (snd y) (len n (fst y))) as [L|[L|L]]; [apply len_spec in L; lia|exact L|]. exfalso.
    pose (z := (fst y, len n (fst y))). assert (exists_at G z) as Ez by (unfold exists_at, z in *; cbn; lia). assert (f z <= f y)%nat as L1 by (apply (it_order G f It); auto; split; [reflexivity|exact L]).
    assert (f z = f y) as Q. { destruct (Nat.lt_ge_cases (f z) n) as [Z|Z]; [|lia]. pose proof (proj2 (len_spec n z) (conj Ez Z)) as Q. unfold z in Q. cbn in Q. lia. }
    destruct (it_step G f It z y Ez Ey Q) as [Z|(t & q & _ & Z)]; [|exact (plain_call _ _ _ _ Py Z)]. rewrite <- Z in L. cbn in L. lia. }
  split; [exact E|]. destruct Py as (q & its & i & Hq & A & Eb). destruct (cutl_next (g_thr G (fst y)) q its i v Hq A) as (h & Eh). exists h. cbn [g_thr upto]. unfold base in Eb. rewrite <- E, Eb. exact Eh.
Qed.
Lemma ordered n : forall x y, conflict (upto n) x y -> fst x <> fst y -> sc_happens_before (upto n) x y \/ sc_happens_before (upto n) y x.
Proof.
  induction n as [|n IH]; intros x y (v & u & b & Px & Py & Cx & Cy & Ww) Ne; [destruct (plain_f _ _ _ Px) as [_ Q]; lia|].
  assert (forall x y v u, plain_at (upto (S n)) x v -> plain_at (upto (S n)) y u -> covers v b -> covers u b -> e_w v = true \/ e_w u = true -> fst x <> fst y -> f x < n -> f y = n -> sc_happens_before (upto (S n)) x y)%nat as K.
  { clear x y v u Px Py Cx Cy Ww Ne. intros x y v u Px Py Cx Cy Ww Ne Fx Fy. destruct (plain_f _ _ _ Px) as [Qx _], (plain_f _ _ _ Py) as [Qy _]. pose proof (plain_upto n x v Qx Fx) as Px'.
    pose proof (prog_free (upto n) (upto_P n) (upto_fin n) IH) as Fr. pose proof (prog_client (upto n) (upto_P n) (upto_fin n)) as Cl. destruct (plain_next n y u Qy Fy) as [Ey (h & Eh)].
    destruct (drop_one T (upto n) Ie W (upto_exec n) Cl Fr (fun t q c r its C => all_sc_rel c (pg_sc _ Pg t _ c r (upto_P n t) (call_in _ _ _ _ _ _ C))) x v (fst y) Px' (not_eq_sym Ne)) as [(t1 & q1 & q2 & B & R)|(H & mf & Mg & He & (h' & Hd) & Hp)].
    - right. exists t1, q1, (fst y), q2. pose proof (upto_more n (S n) ltac:(lia)) as Ct. destruct (reaches_calls _ _ _ R) as [(c1 & r1 & i1 & C1) (c2 & r2 & i2 & C2)]. cbn [fst snd] in *.
      split; [now apply (ct_before _ _ Ct _ _ _ _ _ _ C1)|]. split; [exact (ct_reaches _ _ Ct _ _ R)|]. split; [reflexivity|]. destruct (ct_base _ _ Ct _ _ _ _ _ C2) as [_ <-]. rewrite Ey, <- upto_len.
      destruct (seg_split (upto n) _ _ _ C2) as (pre & post & Ei & Lp & Lb). rewrite Lb, Ei, !app_length. lia.
    - exfalso. assert (forall t, P t (H t)) as HH by (intros t; destruct (Hp t) as (h0 & E0); apply (pg_pre _ Pg t _ h0); rewrite <- E0; apply upto_P).
      destruct (RF H mf Mg HH (fst x) (fst y) v u b Ne) as [Q1 Q2]; auto.
      + apply (pg_pre _ Pg _ _ h'). rewrite <- app_assoc. cbn [app]. rewrite <- Hd. apply upto_P.
      + apply (pg_pre _ Pg _ _ h). rewrite <- app_assoc, He. cbn [app]. rewrite <- Eh. apply HP.
      + destruct Ww; congruence. }
  destruct (plain_f _ _ _ Px) as [Qx Fx], (plain_f _ _ _ Py) as [Qy Fy]. destruct (Nat.eq_dec (f x) n) as [Ex|Nx], (Nat.eq_dec (f y) n) as [Ey|Ny].
  - exfalso. destruct (it_step G f It x y (plain_ex _ _ Qx) (plain_ex _ _ Qy)) as [->|(t & q & Z & _)]; [congruence|now apply Ne|exact (plain_call _ _ _ _ Qx Z)].
  - right. apply (K y x u v); auto; [tauto|lia].
  - left. apply (K x y v u); auto; lia.
  - destruct (IH x y) as [Q|Q]; [|exact Ne|left|right; exact (ct_schb _ _ (upto_more n (S n) ltac:(lia)) _ _ Q)]; [|exact (ct_schb _ _ (upto_more n (S n) ltac:(lia)) _ _ Q)].
    exists v, u, b. split; [apply plain_upto; auto; lia|]. split; [apply plain_upto; auto; lia|]. auto.
Qed.
Lemma prog_race_free : race_free G (sc_happens_before G).
Proof.
  apply prog_free; [exact HP|now exists N|]. intros x y (v & u & b & Px & Py & C) Ne. set (n := S (Nat.max (f x) (f y))). destruct (ordered n x y) as [Q|Q]; auto; [|left|right]; try exact (ct_schb _ _ (upto_all n) _ _ Q).
  exists v, u, b. split; [apply plain_upto; auto; unfold n; lia|]. split; [apply plain_upto; auto; unfold n; lia|exact C].
Qed.
End P.

(* ---- theorems ---- *)
Theorem C41_no_races T P G f : t_ie T = None -> t_wf T -> sc_program P -> sc_race_free (act_step T) P (g_init G) ->
  execution T G -> (forall t, P t (acts (g_thr G t))) -> (exists N, forall t, (N <= t)%nat -> g_thr G t = []) -> in_time G f -> race_free G (sc_happens_before G).
Proof. intros Ie W Pg RF X HP (N & HN) It. exact (prog_race_free T P G f Ie W Pg RF X HP N HN It). Qed.
Theorem C41_drf_sc_program T P G f : t_ie T = None -> t_wf T -> sc_program P -> sc_race_free (act_step T) P (g_init G) ->
  execution T G -> (forall t, P t (acts (g_thr G t))) -> (exists N, forall t, (N <= t)%nat -> g_thr G t = []) -> in_time G f ->
  exists mf, merged (act_step T) (fun t => acts (g_thr G t)) (g_init G) mf /\
    forall b, ((forall w, ~ writes_b G w b) -> mf b = g_init G b) /\
      (forall w v, ev_at G w v -> e_w v = true -> covers v b -> (forall w', ~ g_co G b w w') -> mf b = e_b v b).
Proof.
  intros Ie W Pg RF X HP Fin It. exact (C40_drf_sc T G Ie W X (prog_client P Pg G HP Fin) (C41_no_races T P G f Ie W Pg RF X HP Fin It)).
Qed.
(* in terms of the specification alone, if there is no compare_exchange of 4 bytes on the 64-bit targets of C04_riscv64_refuted, C04_loongarch64_refuted, C04_mips64_refuted *)
Theorem C41_sequential T P G f : t_ie T = None -> t_wf T -> sc_program P -> sc_race_free (act_spec (t_e T)) P (g_init G) ->
  (forall t h n s fo a x y r, P t h -> In (ACall (OCas n s fo a x y) r) h -> cas_upper_bits T n = false) ->
  execution T G -> (forall t, P t (acts (g_thr G t))) -> (exists N, forall t, (N <= t)%nat -> g_thr G t = []) -> in_time G f ->
  exists mf, merged (act_spec (t_e T)) (fun t => acts (g_thr G t)) (g_init G) mf.
Proof.
  intros Ie W Pg RF Nu X HP Fin It. assert (forall H m mf, (forall t, P t (H t)) -> merged (act_step T) H m mf -> merged (act_spec (t_e T)) H m mf) as K.
  { intros H m mf HH M. apply (mg_weaken _ _ _ _ _ M). intros t [c r|v] m1 m2 I D; [|exact D]. cbn [act_step act_spec] in *. unfold op_done in D. destruct c, r; auto. now rewrite (Nu _ _ _ _ _ _ _ _ _ (HH t) I) in D. }
  destruct (C41_drf_sc_program T P G f Ie W Pg) as (mf & M & _); auto; [|exists mf; exact (K _ _ _ HP M)]. intros H mf M HH. exact (RF H mf (K _ _ _ HH M) HH).
Qed.
