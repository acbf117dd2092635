(* C49: reader-writer locks under weak memory: a writer excludes all others. *)
From Verif Require Import Prop_lock Prop_sc All_atomic SeqCst Publish Prop_hb CellSeq Prop_cell Prop_count Prop_arc Prop_once Prop_hist.

(* ---- specification ---- *)
(* The cell holds 0 (free), the number of readers, or [M] (a writer). What a thread may do to it, with compare_exchange; a writer also with store or swap: *)
Inductive mode := Idle | Reading | Writing.
(* the call writes [y] whatever it finds *)
Definition sets (cr : op * rval) : option Z := match cr with (OStore _ _ _ y, _) | (OSwap _ _ _ y, _) => Some y | _ => None end.
Definition move (M : Z) (md : mode) (cr : op * rval) : option mode :=
  match sets cr, wins cr with
  | Some y, _ => match md with Writing => if y =? 0 then Some Idle else None | _ => None end
  | None, None => Some md
  | None, Some (x, y) => match md with
    | Idle => if (x =? 0) && (y =? M) then Some Writing else if (0 <=? x) && (y =? x + 1) && (y <? M) then Some Reading else None
    | Reading => if (0 <? x) && (x <? M) && (y =? x - 1) then Some Idle else None
    | Writing => if (x =? M) && (y =? 0) then Some Idle else None
    end
  end.
Fixpoint moves (M : Z) (md : mode) (l : list (op * rval)) : option mode :=
  match l with [] => Some md | cr :: l => match move M md cr with Some md' => moves M md' l | None => None end end.
(* every thread locks before it unlocks, as reader or as writer; locking acquires, unlocking releases *)
Record rw_client (T : arch) (G : graph) (a n M : Z) : Prop := {
  rw_max : 0 < M;
  rw_acq : forall t c r x y, In (c, r) (on_cell a n (calls (g_thr G t))) -> wins (c, r) = Some (x, y) -> x < y -> acquires (eff c r) = true;
  rw_rel : forall t c r x y, In (c, r) (on_cell a n (calls (g_thr G t))) -> wins (c, r) = Some (x, y) -> y < x -> releases (weff c) = true;
  rw_set : forall t c r y, In (c, r) (on_cell a n (calls (g_thr G t))) -> sets (c, r) = Some y -> releases (weff c) = true;
  rw_moves : forall t, moves M Idle (on_cell a n (calls (g_thr G t))) <> None;
  rw_init : rd (t_e T) (g_init G) a n = 0
}.
Definition locks (M : Z) (md : mode) (xy : Z * Z) : Prop :=
  match md with Idle => False | Reading => 0 <= fst xy /\ snd xy = fst xy + 1 /\ snd xy < M | Writing => fst xy = 0 /\ snd xy = M end.
Definition unlocks (M : Z) (md : mode) (cr : op * rval) : Prop :=
  match md with
  | Idle => False
  | Reading => exists x, 0 < x < M /\ wins cr = Some (x, x - 1)
  | Writing => wins cr = Some (M, 0) \/ sets cr = Some 0
  end.
(* thread [t] acquires the lock in call [ql] and releases it in call [qu] *)
Definition section_of (G : graph) (a n M : Z) (md : mode) (t ql qu : nat) : Prop :=
  exists cl rl itl cu ru itu xl, call_at G t ql cl rl itl /\ call_at G t qu cu ru itu /\ op_cell cl = (a, n) /\ op_cell cu = (a, n) /\ (ql < qu)%nat /\
    wins (cl, rl) = Some xl /\ locks M md xl /\ unlocks M md (cu, ru) /\
    forall q c r its, (ql < q < qu)%nat -> call_at G t q c r its -> op_cell c = (a, n) -> wins (c, r) = None /\ sets (c, r) = None.

(* ---- machinery ---- *)
Definition proj (t : nat) (l : list entry) : list (op * rval) := map (fun p => (e_op p, e_res p)) (filter (fun p => Nat.eqb (fst (e_at p)) t) l).
Lemma proj_app t l l' : proj t (l ++ l') = proj t l ++ proj t l'.
Proof. unfold proj. now rewrite filter_app, map_app. Qed.
Lemma moves_app M l : forall md l', moves M md (l ++ l') = match moves M md l with Some md' => moves M md' l' | None => None end.
Proof. induction l as [|x l IH]; intros md l'; [reflexivity|]. cbn [app moves]. destruct (move M md x); [apply IH|reflexivity]. Qed.
Lemma history_app T v l l' v2 : history T v (l ++ l') v2 -> exists v1, history T v l v1 /\ history T v1 l' v2.
Proof.
  revert v. induction l as [|p l IH]; intros v H; [exists v; split; [constructor|exact H]|]. inversion H as [|? ? w ? ? Sx H1]; subst. destruct (IH w H1) as (v1 & H2 & H3). exists v1. split; [econstructor; eauto|exact H3].
Qed.
Definition isr (o : option mode) : bool := match o with Some Reading => true | _ => false end.
Fixpoint readers (f : nat -> option mode) (N : nat) : Z := match N with O => 0 | S N => readers f N + if isr (f N) then 1 else 0 end.
Lemma readers_ext f g N : (forall t, (t < N)%nat -> f t = g t) -> readers f N = readers g N.
Proof. induction N as [|N IH]; intros H; [reflexivity|]. cbn [readers]. rewrite IH by (intros t L; apply H; lia). now rewrite (H N) by lia. Qed.
Lemma readers_nn f N : 0 <= readers f N.
Proof. induction N as [|N IH]; cbn [readers]; [lia|]. destruct (isr (f N)); lia. Qed.
Lemma readers_0 f N : readers f N = 0 -> forall t, (t < N)%nat -> isr (f t) = false.
Proof.
  induction N as [|N IH]; intros H t L; [lia|]. cbn [readers] in H. pose proof (readers_nn f N). destruct (isr (f N)) eqn:E; [lia|]. destruct (Nat.eq_dec t N) as [->|]; [exact E|]. apply IH; lia.
Qed.
Lemma readers_none f N : (forall t, (t < N)%nat -> isr (f t) = false) -> readers f N = 0.
Proof. induction N as [|N IH]; intros H; [reflexivity|]. cbn [readers]. rewrite (H N) by lia. rewrite IH; [lia|]. intros t L. apply H. lia. Qed.
Lemma readers_upd f g N t0 : (t0 < N)%nat -> (forall t, t <> t0 -> g t = f t) -> readers g N = readers f N + (if isr (g t0) then 1 else 0) - (if isr (f t0) then 1 else 0).
Proof.
  induction N as [|N IH]; intros L H; [lia|]. cbn [readers]. destruct (Nat.eq_dec t0 N) as [->|Ne].
  - rewrite (readers_ext g f N) by (intros t Lt; apply H; lia). lia.
  - rewrite IH by (auto; lia). rewrite (H N) by lia. lia.
Qed.
Section H.
Context (T : arch) (M : Z) (PM : 0 < M) (N : nat).
Definition ms (l : list entry) (t : nat) : option mode := moves M Idle (proj t l).
(* one writer and nobody else, or a number of readers *)
Definition shared (l : list entry) (v : Z) : Prop :=
  (exists t0, ms l t0 = Some Writing /\ (forall t, t <> t0 -> ms l t = Some Idle) /\ v = M) \/ ((forall t, ms l t <> Some Writing) /\ v = readers (ms l) N).
Lemma keeps v0 l v : history T v0 l v -> v0 = 0 -> Forall (fun p => (fst (e_at p) < N)%nat) l -> (forall t, ms l t <> None) -> shared l v.
Proof.
  intros H Z. subst v0. revert v H. induction l as [|p l IH] using rev_ind; intros v H F D.
  { inversion H; subst. right. split; [intros t; discriminate|]. symmetry. apply readers_none. reflexivity. }
  apply Forall_app in F. destruct F as [F Fp]. apply Forall_inv in Fp. rename Fp into Lt.
  destruct (history_app _ _ _ _ _ H) as (v1 & H1 & H2). inversion H2 as [|? ? w ? ? Sx H3]; subst. inversion H3; subst. clear H2 H3.
  set (t0 := fst (e_at p)) in *. set (cr := (e_op p, e_res p)) in *.
  assert (forall t, t <> t0 -> ms (l ++ [p]) t = ms l t) as Eo.
  { intros t Ne. unfold ms. rewrite proj_app. unfold proj at 2. cbn [filter]. fold t0. destruct (Nat.eqb_spec t0 t) as [Q|_]; [congruence|]. cbn [map]. now rewrite app_nil_r. }
  assert (ms (l ++ [p]) t0 = match ms l t0 with Some md => move M md cr | None => None end) as Es.
  { unfold ms. rewrite proj_app, moves_app. unfold proj at 2. cbn [filter]. fold t0. rewrite Nat.eqb_refl. cbn [map moves]. fold cr. destruct (moves M Idle (proj t0 l)) as [md|]; [|reflexivity]. now destruct (move M md cr). }
  assert (forall t, ms l t <> None) as D'.
  { intros t Q. destruct (Nat.eq_dec t t0) as [->|Ne]; [apply (D t0); rewrite Es, Q; reflexivity|apply (D t); now rewrite (Eo t Ne)]. }
  specialize (IH _ H1 F D'). pose proof (D t0) as D0. rewrite Es in D0. destruct (ms l t0) as [md|] eqn:E0; [|congruence].
  assert (match sets cr, wins cr with Some y, _ => v = y | None, Some (x, y) => v1 = x /\ v = y | None, None => v = v1 end) as Sw.
  { clear - Sx. unfold cr in *. destruct (e_op p), (e_res p) as [| |? []]; cbn in *; try contradiction; tauto. }
  unfold move in Es, D0.
  assert (md = Writing -> move M md cr = Some Idle -> v = 0 -> v1 = M \/ True -> shared (l ++ [p]) v) as Free.
  { intros -> Mv -> _. unfold move in Mv. rewrite Mv in Es. destruct IH as [(tw & Q1 & Q2 & _)|[Q1 _]]; [|exfalso; exact (Q1 t0 E0)]. right.
    assert (tw = t0) as -> by (destruct (Nat.eq_dec t0 tw) as [Q|Ne]; [auto|rewrite (Q2 t0 Ne) in E0; discriminate E0]).
    assert (forall t, ms (l ++ [p]) t = Some Idle) as Ei by (intros t; destruct (Nat.eq_dec t t0) as [->|Ne]; [exact Es|rewrite (Eo t Ne); auto]).
    split; [intros t; rewrite Ei; discriminate|]. symmetry. apply readers_none. intros t _. now rewrite Ei. }
  destruct (sets cr) as [ys|] eqn:Ey.
  { subst ys. destruct md; try congruence. destruct (v =? 0) eqn:Q; [|congruence]. apply Free; [reflexivity| |now apply Z.eqb_eq|now right]. unfold move. now rewrite Ey, Q. }
  destruct (wins cr) as [[x y]|] eqn:Ew.
  2:{ subst v. assert (forall t, ms (l ++ [p]) t = ms l t) as Ea by (intros t; destruct (Nat.eq_dec t t0) as [->|Ne]; [congruence|auto]).
      destruct IH as [(tw & Q1 & Q2 & Q3)|[Q1 Q2]]; [left; exists tw; rewrite Ea; split; [exact Q1|split; [intros t Ne; rewrite Ea; auto|exact Q3]]|right; split; [intros t; rewrite Ea; auto|rewrite Q2; apply readers_ext; intros; now rewrite Ea]]. }
  destruct Sw as [-> ->]. destruct md.
  - destruct ((x =? 0) && (y =? M)) eqn:Q.
    + apply andb_true_iff in Q. rewrite !Z.eqb_eq in Q. destruct Q as [-> ->]. destruct IH as [(tw & _ & _ & Q3)|[Q1 Q2]]; [lia|]. left. exists t0. split; [exact Es|]. split; [|reflexivity].
      intros t Ne. rewrite (Eo t Ne). pose proof (D' t) as D1. destruct (ms l t) as [[]|] eqn:Et; [reflexivity| |exfalso; exact (Q1 t Et)|congruence].
      exfalso. destruct (Nat.lt_ge_cases t N) as [L|L]; [pose proof (readers_0 _ _ (eq_sym Q2) t L) as Q4; rewrite Et in Q4; discriminate Q4|].
      unfold ms in Et. assert (proj t l = []) as Ep. { unfold proj. replace (filter (fun p0 => Nat.eqb (fst (e_at p0)) t) l) with (@nil entry); [reflexivity|]. symmetry. clear - F L. induction F as [|z l0 Fz F IH]; [reflexivity|]. cbn [filter]. rewrite IH. destruct (Nat.eqb_spec (fst (e_at z)) t); [lia|reflexivity]. }
      rewrite Ep in Et. discriminate Et.
    + destruct ((0 <=? x) && (y =? x + 1) && (y <? M)) eqn:Q'; [|congruence]. rewrite !andb_true_iff, Z.leb_le, Z.eqb_eq, Z.ltb_lt in Q'. destruct Q' as [[Qx ->] Qm].
      destruct IH as [(tw & _ & _ & Q3)|[Q1 Q2]]; [lia|]. right. split.
      * intros t. destruct (Nat.eq_dec t t0) as [->|Ne]; [rewrite Es; discriminate|rewrite (Eo t Ne); apply Q1].
      * rewrite (readers_upd (ms l) _ N t0 Lt Eo), Es, E0. cbn [isr]. lia.
  - destruct ((0 <? x) && (x <? M) && (y =? x - 1)) eqn:Q; [|congruence]. rewrite !andb_true_iff, !Z.ltb_lt, Z.eqb_eq in Q. destruct Q as [[Qx Qm] ->].
    destruct IH as [(tw & _ & _ & Q3)|[Q1 Q2]]; [lia|]. right. split.
    + intros t. destruct (Nat.eq_dec t t0) as [->|Ne]; [rewrite Es; discriminate|rewrite (Eo t Ne); apply Q1].
    + rewrite (readers_upd (ms l) _ N t0 Lt Eo), Es, E0. cbn [isr]. lia.
  - destruct ((x =? M) && (y =? 0)) eqn:Q; [|congruence]. rewrite !andb_true_iff, !Z.eqb_eq in Q. destruct Q as [-> ->].
    apply Free; [reflexivity| |reflexivity|now right]. unfold move. now rewrite Ey, Ew, !Z.eqb_refl.
Qed.
End H.
Lemma wins_sets cr xy : wins cr = Some xy -> sets cr = None.
Proof. destruct cr as [c r]. destruct c, r as [| |? []]; cbn; congruence. Qed.
Lemma locks_from M md md0 xl cr : 0 < M -> wins cr = Some xl -> locks M md xl -> move M md0 cr <> None -> move M md0 cr = Some md.
Proof.
  intros PM Wi Lk D. unfold move in *. rewrite (wins_sets _ _ Wi), Wi in *. destruct xl as [x y]. cbn [locks fst snd] in Lk. destruct md; [contradiction Lk| |]; destruct md0; cbn [locks fst snd] in Lk.
  - destruct ((x =? 0) && (y =? M)) eqn:Q; [rewrite andb_true_iff, !Z.eqb_eq in Q; lia|]. destruct (_ && _ && _); congruence.
  - destruct ((0 <? x) && (x <? M) && (y =? x - 1)) eqn:Q; [rewrite !andb_true_iff, !Z.ltb_lt, Z.eqb_eq in Q; lia|congruence].
  - destruct ((x =? M) && (y =? 0)) eqn:Q; [rewrite !andb_true_iff, !Z.eqb_eq in Q; lia|congruence].
  - destruct Lk as [-> ->]. now rewrite !Z.eqb_refl.
  - destruct ((0 <? x) && (x <? M) && (y =? x - 1)) eqn:Q; [rewrite !andb_true_iff, !Z.ltb_lt, Z.eqb_eq in Q; lia|congruence].
  - destruct ((x =? M) && (y =? 0)) eqn:Q; [rewrite !andb_true_iff, !Z.eqb_eq in Q; lia|congruence].
Qed.
Lemma firstn_snoc {A} (l : list A) : forall k p, nth_error l k = Some p -> firstn (S k) l = firstn k l ++ [p].
Proof. induction l as [|x l IH]; intros [|k] p H; try discriminate H; [injection H as ->; reflexivity|]. cbn [firstn app]. f_equal. exact (IH k p H). Qed.
Lemma two_split {A} (l : list A) i j p p' : (i < j)%nat -> nth_error l i = Some p -> nth_error l j = Some p' -> exists l1 l2 l3, l = l1 ++ p :: l2 ++ p' :: l3 /\ length l1 = i /\ (length l1 + S (length l2) = j)%nat.
Proof.
  intros L H H'. destruct (nth_error_split _ _ H) as (l1 & l2 & -> & E). rewrite nth_error_app2 in H' by lia. destruct (j - length l1)%nat as [|k] eqn:Ek; [lia|]. cbn [nth_error] in H'.
  destruct (nth_error_split _ _ H') as (l3 & l4 & -> & E'). exists l1, l3, l4. split; [reflexivity|]. split; [exact E|]. lia.
Qed.
(* the last element of a list for which [f] holds *)
Lemma last_of {A} (f : A -> bool) l : Forall (fun x => f x = false) l \/ exists l1 x l2, l = l1 ++ x :: l2 /\ f x = true /\ Forall (fun x => f x = false) l2.
Proof.
  induction l as [|x l [IH|(l1 & y & l2 & -> & F & IH)]].
  - left. constructor.
  - destruct (f x) eqn:E; [right; exists [], x, l; auto|left; constructor; auto].
  - right. exists (x :: l1), y, l2. auto.
Qed.
Lemma wins_moves cr x y : wins cr = Some (x, y) -> takes x cr /\ puts y cr.
Proof. destruct cr as [c r]. destruct c, r as [| |? []]; cbn; intros H; try discriminate H; injection H as -> ->; auto. Qed.
Lemma wins_cas c r xy : wins (c, r) = Some xy -> is_store c = false.
Proof. destruct c, r as [| |? []]; cbn; intros H; try discriminate H; reflexivity. Qed.
Lemma ordered_in G t l1 u1 l2 u2 x y : (u1 <= l2)%nat -> inside G x t l1 u1 -> inside G y t l2 u2 -> happens_before G x y.
Proof. intros L [_ [E1 B]] [[E2 A] _]. left. split; [congruence|]. pose proof (base_mono G t u1 (S l2) ltac:(lia)). lia. Qed.
Lemma unlock_idle M md cr : 0 < M -> unlocks M md cr -> move M md cr = Some Idle.
Proof.
  intros PM U. destruct md; cbn [unlocks] in U; [contradiction U| |].
  - destruct U as (x & L & Wi). unfold move. rewrite (wins_sets _ _ Wi), Wi. destruct ((0 <? x) && (x <? M) && (x - 1 =? x - 1)) eqn:Q; [reflexivity|]. rewrite Z.eqb_refl, andb_true_r, andb_false_iff, !Z.ltb_ge in Q. lia.
  - unfold move. destruct U as [Wi|S]; [rewrite (wins_sets _ _ Wi), Wi, !Z.eqb_refl; reflexivity|now rewrite S].
Qed.
Lemma unlock_not_lock M md cr : 0 < M -> unlocks M md cr -> wins cr <> Some (0, M).
Proof.
  intros PM U Q. destruct md; cbn [unlocks] in U; [contradiction U| |].
  - destruct U as (x & L & Wi). rewrite Q in Wi. injection Wi. lia.
  - destruct U as [Wi|S]; [rewrite Q in Wi; injection Wi; lia|rewrite (wins_sets _ _ Q) in S; discriminate S].
Qed.

Section R.
Context (T : arch) (G : graph) (a n M : Z) (Ie : t_ie T = None) (W : t_wf T) (X : execution T G) (C : cells_client G) (K : rw_client T G a n M).
Context (l : list entry) (v' : Z) (Hi : history T 0 l v')
  (Mem : forall t q c r, In (t, q, c, r) l <-> op_cell c = (a, n) /\ exists its, call_at G t q c r its)
  (Pj : forall t, proj t l = on_cell a n (calls (g_thr G t)))
  (Po : forall l1 p1 l2 p2 l3, l = l1 ++ p1 :: l2 ++ p2 :: l3 -> fst (e_at p1) = fst (e_at p2) -> (snd (e_at p1) < snd (e_at p2))%nat)
  (Sy : forall l1 p1 l2 p2 l3, l = l1 ++ p1 :: l2 ++ p2 :: l3 -> changes (e_op p1) (e_res p1) -> Forall (fun p => is_store (e_op p) = false) (l2 ++ [p2]) ->
       releases (weff (e_op p1)) = true -> acquires (eff (e_op p2) (e_res p2)) = true -> syncs G (e_at p1) (e_at p2)).
Notation PM := (rw_max _ _ _ _ _ K).
Lemma defined k t : ms M (firstn k l) t <> None.
Proof. intros Q. apply (rw_moves _ _ _ _ _ K t). rewrite <- Pj, <- (firstn_skipn k l), proj_app, moves_app. unfold ms in Q. now rewrite Q. Qed.
Lemma ms_snoc k p t : nth_error l k = Some p -> ms M (firstn (S k) l) t =
  if Nat.eqb (fst (e_at p)) t then match ms M (firstn k l) t with Some md => move M md (e_op p, e_res p) | None => None end else ms M (firstn k l) t.
Proof.
  intros H. rewrite (firstn_snoc l k p H). unfold ms. rewrite proj_app, moves_app. unfold proj at 2. cbn [filter]. destruct (Nat.eqb (fst (e_at p)) t); cbn [map moves].
  - destruct (moves M Idle (proj t (firstn k l))) as [md|]; [|reflexivity]. now destruct (move M md _).
  - now destruct (moves M Idle (proj t (firstn k l))).
Qed.
Lemma on_it t q c r i : nth_error l i = Some (t, q, c, r) -> In (c, r) (on_cell a n (calls (g_thr G t))).
Proof.
  intros H. rewrite <- Pj. unfold proj. apply in_map_iff. exists (t, q, c, r). split; [reflexivity|]. apply filter_In. split; [exact (nth_error_In _ _ H)|]. cbn [e_at fst]. apply Nat.eqb_refl.
Qed.
Lemma held md t ql qu cl rl xl cu ru i j : nth_error l i = Some (t, ql, cl, rl) -> nth_error l j = Some (t, qu, cu, ru) -> wins (cl, rl) = Some xl -> locks M md xl ->
  (forall q c r its, (ql < q < qu)%nat -> call_at G t q c r its -> op_cell c = (a, n) -> wins (c, r) = None /\ sets (c, r) = None) ->
  forall k, (i < k)%nat -> (k <= j)%nat -> ms M (firstn k l) t = Some md.
Proof.
  intros Hl Hu Wi Lk No. induction k as [|k IH]; intros L L'; [lia|]. destruct (Nat.eq_dec i k) as [<-|Ne].
  - pose proof (ms_snoc i _ t Hl) as Q. cbn [e_at fst] in Q. rewrite Nat.eqb_refl in Q. pose proof (defined (S i) t) as D. rewrite Q in D |- *. destruct (ms M (firstn i l) t) as [md0|]; [|congruence].
    exact (locks_from M md md0 xl (cl, rl) PM Wi Lk D).
  - specialize (IH ltac:(lia) ltac:(lia)). destruct (nth_error l k) as [p|] eqn:Hk.
    2:{ apply nth_error_None in Hk. assert (nth_error l j <> None) as Q by congruence. apply nth_error_Some in Q. lia. }
    rewrite (ms_snoc k p t Hk), IH. destruct (Nat.eqb_spec (fst (e_at p)) t) as [Et|]; [|reflexivity].
    destruct p as [[[tp q] c] r]. cbn [e_at fst] in Et. subst tp. destruct (two_split l i k _ _ ltac:(lia) Hl Hk) as (A1 & A2 & A3 & EA & _). destruct (two_split l k j _ _ ltac:(lia) Hk Hu) as (B1 & B2 & B3 & EB & _).
    pose proof (Po _ _ _ _ _ EA eq_refl) as P1. pose proof (Po _ _ _ _ _ EB eq_refl) as P2. cbn [e_at fst snd] in P1, P2.
    destruct (proj1 (Mem t q c r) (nth_error_In _ _ Hk)) as [Ec (its & Ca)]. cbn [e_op e_res fst snd]. unfold move. destruct (No q c r its (conj P1 P2) Ca Ec) as [-> ->]. reflexivity.
Qed.
Lemma holds k v1 : history T 0 (firstn k l) v1 -> exists N, shared M N (firstn k l) v1.
Proof.
  intros Hv. destruct (cc_fin _ C) as (N & HN). exists N. apply (keeps T M PM N 0 (firstn k l) v1 Hv eq_refl); [|exact (defined k)].
  apply Forall_forall. intros [[[t q] c] r] I. assert (In (t, q, c, r) l) as J by (rewrite <- (firstn_skipn k l); apply in_or_app; now left). destruct (proj1 (Mem _ _ _ _) J) as [Ec (its & Ca)]. cbn [e_at fst].
  destruct (Nat.lt_ge_cases t N) as [Q|Q]; [exact Q|]. unfold call_at in Ca. rewrite (HN t Q) in Ca. destruct q; discriminate Ca.
Qed.
Lemma never_both md t1 t2 k : t1 <> t2 -> md <> Idle -> ms M (firstn k l) t1 = Some Writing -> ms M (firstn k l) t2 = Some md -> False.
Proof.
  intros Ne Nm H1 H2. pose proof Hi as H. rewrite <- (firstn_skipn k l) in H. destruct (history_app _ _ _ _ _ H) as (v1 & Hv & _).
  destruct (holds k v1 Hv) as (N & [(t0 & _ & Q2 & _)|[Q1 _]]); [|exact (Q1 t1 H1)].
  destruct (Nat.eq_dec t1 t0) as [<-|N1]; [rewrite (Q2 t2 (not_eq_sym Ne)) in H2; congruence|rewrite (Q2 t1 N1) in H1; discriminate H1].
Qed.
Lemma unlock_changes md t q c r i : nth_error l i = Some (t, q, c, r) -> ms M (firstn i l) t = Some md -> unlocks M md (c, r) -> changes c r.
Proof.
  intros H Em U. assert (forall x y, wins (c, r) = Some (x, y) -> x <> y -> changes c r) as Cw.
  { intros x y Wi Ne. right. exists x, y. destruct (wins_moves _ _ _ Wi) as [Q1 Q2]. auto. }
  destruct md; cbn [unlocks] in U; [contradiction U| |].
  - destruct U as (x & L & Wi). apply (Cw _ _ Wi). lia.
  - destruct U as [Wi|S]; [pose proof PM; apply (Cw _ _ Wi); lia|]. pose proof Hi as Hh. rewrite <- (firstn_skipn i l) in Hh. destruct (history_app _ _ _ _ _ Hh) as (v1 & Hv & Hr).
    destruct (nth_error_split _ _ H) as (l1 & l2 & El & E1). assert (skipn i l = (t, q, c, r) :: l2) as Es by (rewrite El, <- E1, skipn_app, skipn_all, Nat.sub_diag; reflexivity).
    rewrite Es in Hr. clear El E1 Es. inversion Hr as [|? ? w ? ? Sx H3]; subst. cbn [e_op e_res fst snd] in Sx.
    destruct (holds _ v1 Hv) as (N & [(t0 & _ & _ & Q3)|[Q1 _]]); [|exfalso; exact (Q1 t Em)].
    destruct c; cbn in S; try discriminate S; injection S as ->; [left; reflexivity|]. right. exists M, 0. destruct r; cbn in Sx |- *; try contradiction Sx. pose proof PM. destruct Sx. repeat split; try lia.
Qed.
(* a writer has locked, and has held the lock since *)
Lemma lock_before t k : ms M (firstn k l) t = Some Writing -> exists p q c r, (p < k)%nat /\ nth_error l p = Some (t, q, c, r) /\ wins (c, r) = Some (0, M) /\
  forall m, (p < m)%nat -> (m <= k)%nat -> ms M (firstn m l) t = Some Writing.
Proof.
  induction k as [|k IH]; intros H; [discriminate H|]. destruct (nth_error l k) as [[[[t' q] c] r]|] eqn:Hk.
  - pose proof (ms_snoc k _ t Hk) as Q. rewrite H in Q. cbn [e_at fst e_op e_res snd] in Q.
    assert (ms M (firstn k l) t = Some Writing -> exists p q c r, (p < S k)%nat /\ nth_error l p = Some (t, q, c, r) /\ wins (c, r) = Some (0, M) /\ forall m, (p < m)%nat -> (m <= S k)%nat -> ms M (firstn m l) t = Some Writing) as Ext.
    { intros Q1. destruct (IH Q1) as (p & qp & cp & rp & L & Hp & Wi & Al). exists p, qp, cp, rp. split; [lia|]. split; [exact Hp|]. split; [exact Wi|]. intros m L1 L2. destruct (Nat.eq_dec m (S k)) as [->|]; [exact H|apply Al; lia]. }
    destruct (Nat.eqb_spec t' t) as [->|]; [|apply Ext; now symmetry]. destruct (ms M (firstn k l) t) as [md|]; [|discriminate Q]. destruct md; [| |now apply Ext].
    + exists k, q, c, r. split; [lia|]. split; [exact Hk|]. split.
      * unfold move in Q. destruct (sets (c, r)); [discriminate Q|]. destruct (wins (c, r)) as [[x y]|]; [|discriminate Q]. destruct ((x =? 0) && (y =? M)) eqn:Z; [|destruct (_ && _ && _); discriminate Q].
        rewrite andb_true_iff, !Z.eqb_eq in Z. now destruct Z as [-> ->].
      * intros m L1 L2. assert (m = S k) as -> by lia. exact H.
    + exfalso. unfold move in Q. destruct (sets (c, r)); [discriminate Q|]. destruct (wins (c, r)) as [[x y]|]; [|discriminate Q]. destruct (_ && _ && _); discriminate Q.
  - apply nth_error_None in Hk. rewrite firstn_all2 in H by lia. assert (ms M (firstn k l) t = Some Writing) as Q by (rewrite firstn_all2 by lia; exact H).
    destruct (IH Q) as (p & qp & cp & rp & L & Hp & Wi & Al). exists p, qp, cp, rp. split; [lia|]. split; [exact Hp|]. split; [exact Wi|]. intros m L1 L2. destruct (Nat.eq_dec m (S k)) as [->|]; [rewrite firstn_all2 by lia; exact H|apply Al; lia].
Qed.
Lemma hands_over md1 md2 t1 q1 c1 r1 i j : forall t2 q2 c2 r2 x2, (i < j)%nat -> nth_error l i = Some (t1, q1, c1, r1) -> ms M (firstn i l) t1 = Some md1 -> unlocks M md1 (c1, r1) ->
  nth_error l j = Some (t2, q2, c2, r2) -> wins (c2, r2) = Some x2 -> locks M md2 x2 -> reaches G (t1, q1) (t2, q2).
Proof.
  revert md2. induction j as [j IH] using lt_wf_ind. intros md2 t2 q2 c2 r2 x2 L H1 Em Un H2 Wi Lk.
  assert (acquires (eff c2 r2) = true) as Aq.
  { destruct x2 as [x y]. apply (rw_acq _ _ _ _ _ K t2 c2 r2 x y (on_it _ _ _ _ _ H2) Wi). pose proof PM. destruct md2; cbn in Lk; [contradiction Lk|lia|lia]. }
  destruct (two_split l i j _ _ L H1 H2) as (A1 & A2 & A3 & EA & LA1 & LA2).
  destruct (last_of (fun p => is_store (e_op p)) A2) as [F|(B1 & s & B2 & -> & Ss & F)].
  - apply re_one. apply (Sy _ _ _ _ _ EA); cbn [e_op e_res fst snd].
    + exact (unlock_changes md1 t1 q1 c1 r1 i H1 Em Un).
    + apply Forall_app. split; [exact F|]. constructor; [exact (wins_cas _ _ _ Wi)|constructor].
    + pose proof (on_it _ _ _ _ _ H1) as O1. destruct md1; cbn [unlocks] in Un; [contradiction Un| |].
      * destruct Un as (x & Lx & W1). apply (rw_rel _ _ _ _ _ K t1 c1 r1 x (x - 1) O1 W1). lia.
      * destruct Un as [W1|S1]; [apply (rw_rel _ _ _ _ _ K t1 c1 r1 M 0 O1 W1), PM|exact (rw_set _ _ _ _ _ K t1 c1 r1 0 O1 S1)].
    + exact Aq.
  - set (k := (i + S (length B1))%nat). destruct s as [[[ts qs] cs] rs]. cbn [e_op fst snd] in Ss. rewrite app_length in LA2. cbn [length] in LA2.
    assert (nth_error l k = Some (ts, qs, cs, rs)) as Hs.
    { rewrite EA. rewrite nth_error_app2 by (unfold k; lia). replace (k - length A1)%nat with (S (length B1)) by (unfold k; lia). cbn [nth_error]. rewrite <- app_assoc. rewrite nth_error_app2 by lia. now rewrite Nat.sub_diag. }
    assert (exists y, sets (cs, rs) = Some y) as (ys & Es) by (destruct cs; try discriminate Ss; eexists; reflexivity).
    assert (ms M (firstn k l) ts = Some Writing) as Ek.
    { pose proof (ms_snoc k _ ts Hs) as Q. cbn [e_at fst e_op e_res snd] in Q. rewrite Nat.eqb_refl in Q. pose proof (defined (S k) ts) as D. rewrite Q in D. destruct (ms M (firstn k l) ts) as [md|]; [|congruence].
      unfold move in D. rewrite Es in D. destruct md; congruence. }
    destruct (lock_before ts k Ek) as (p & qp & cp & rp & Lp & Hp & Wp & Al).
    assert (syncs G (ts, qs) (t2, q2)) as Sk.
    { apply (Sy (A1 ++ (t1, q1, c1, r1) :: B1) (ts, qs, cs, rs) B2 (t2, q2, c2, r2) A3); cbn [e_op e_res fst snd].
      - rewrite EA. rewrite <- !app_assoc. cbn [app]. now rewrite <- ?app_assoc.
      - left. exact Ss.
      - apply Forall_app. split; [exact F|]. constructor; [exact (wins_cas _ _ _ Wi)|constructor].
      - exact (rw_set _ _ _ _ _ K ts cs rs ys (on_it _ _ _ _ _ Hs) Es).
      - exact Aq. }
    assert (i < p)%nat as Lip.
    { destruct (Nat.lt_trichotomy i p) as [Q|[Q|Q]]; [exact Q|exfalso|exfalso].
      - subst p. rewrite H1 in Hp. injection Hp as <- <- <- <-. exact (unlock_not_lock M md1 _ PM Un Wp).
      - destruct (Nat.eq_dec t1 ts) as [<-|Nt].
        + pose proof (ms_snoc i _ t1 H1) as Q1. cbn [e_at fst e_op e_res snd] in Q1. rewrite Nat.eqb_refl, Em, (unlock_idle M md1 _ PM Un) in Q1. rewrite (Al (S i)) in Q1 by (unfold k; lia). discriminate Q1.
        + apply (never_both md1 ts t1 i (not_eq_sym Nt)); [intros ->; exact Un|apply Al; unfold k; lia|exact Em]. }
    pose proof (IH p ltac:(unfold k in Lp; lia) Writing ts qp cp rp (0, M) Lip H1 Em Un Hp Wp (conj eq_refl eq_refl)) as R.
    destruct (two_split l p k _ _ Lp Hp Hs) as (D1 & D2 & D3 & ED & _). pose proof (Po _ _ _ _ _ ED eq_refl) as P. cbn [e_at fst snd] in P.
    exact (reaches_trans G _ ts qp qs _ R (Nat.lt_le_incl _ _ P) (re_one G _ _ Sk)).
Qed.
Lemma exclusive md t1 l1 u1 t2 l2 u2 : section_of G a n M Writing t1 l1 u1 -> section_of G a n M md t2 l2 u2 -> (t1, l1) <> (t2, l2) ->
  (forall x y, inside G x t1 l1 u1 -> inside G y t2 l2 u2 -> happens_before G x y) \/ (forall x y, inside G x t1 l1 u1 -> inside G y t2 l2 u2 -> happens_before G y x).
Proof.
  intros (c1 & r1 & it1 & d1 & s1 & jt1 & x1 & C1 & D1 & E1 & F1 & L1 & W1 & Lk1 & Un1 & N1) (c2 & r2 & it2 & d2 & s2 & jt2 & x2 & C2 & D2 & E2 & F2 & L2 & W2 & Lk2 & Un2 & N2) Ne.
  destruct (Nat.eq_dec t1 t2) as [<-|Nt].
  - assert (l1 <> l2) as Nl by congruence. destruct (Nat.lt_ge_cases l1 l2) as [Q|Q].
    + left. intros x y Ix Iy. apply (ordered_in G t1 l1 u1 l2 u2); auto. destruct (Nat.le_gt_cases u1 l2) as [Z|Z]; [exact Z|]. destruct (N1 l2 c2 r2 it2 (conj Q Z) C2 E2) as [V _]. rewrite V in W2. discriminate W2.
    + right. intros x y Ix Iy. apply (ordered_in G t1 l2 u2 l1 u1); auto. destruct (Nat.le_gt_cases u2 l1) as [Z|Z]; [exact Z|]. destruct (N2 l1 c1 r1 it1 ltac:(lia) C1 E1) as [V _]. rewrite V in W1. discriminate W1.
  - assert (forall t q c r its, call_at G t q c r its -> op_cell c = (a, n) -> exists i, nth_error l i = Some (t, q, c, r)) as Ix by (intros; apply In_nth_error, Mem; eauto).
    destruct (Ix _ _ _ _ _ C1 E1) as (i1 & I1), (Ix _ _ _ _ _ D1 F1) as (j1 & J1), (Ix _ _ _ _ _ C2 E2) as (i2 & I2), (Ix _ _ _ _ _ D2 F2) as (j2 & J2).
    assert (forall t q q' c r c' r' i j, (q < q')%nat -> nth_error l i = Some (t, q, c, r) -> nth_error l j = Some (t, q', c', r') -> (i < j)%nat) as Ord.
    { intros t q q' c r c' r' i j Lq Hi0 Hj. destruct (Nat.lt_trichotomy i j) as [Q|[Q|Q]]; [exact Q|exfalso; subst j; rewrite Hi0 in Hj; injection Hj; lia|exfalso].
      destruct (two_split l j i _ _ Q Hj Hi0) as (B1 & B2 & B3 & EB & _). pose proof (Po _ _ _ _ _ EB eq_refl) as P. cbn [e_at fst snd] in P. lia. }
    pose proof (Ord _ _ _ _ _ _ _ _ _ L1 I1 J1) as O1. pose proof (Ord _ _ _ _ _ _ _ _ _ L2 I2 J2) as O2.
    pose proof (held Writing t1 l1 u1 c1 r1 x1 d1 s1 i1 j1 I1 J1 W1 Lk1 N1) as Hd1. pose proof (held md t2 l2 u2 c2 r2 x2 d2 s2 i2 j2 I2 J2 W2 Lk2 N2) as Hd2.
    destruct (Nat.lt_ge_cases j1 i2) as [Q|Q].
    { left. intros x y [_ B] [A _]. right. exists t1, u1, t2, l2. split; [exact B|]. split; [|exact A]. exact (hands_over Writing md t1 u1 d1 s1 j1 i2 t2 l2 c2 r2 x2 Q J1 (Hd1 j1 O1 (le_n _)) Un1 I2 W2 Lk2). }
    destruct (Nat.lt_ge_cases j2 i1) as [Q'|Q'].
    { right. intros x y [A _] [_ B]. right. exists t2, u2, t1, l1. split; [exact B|]. split; [|exact A]. exact (hands_over md Writing t2 u2 d2 s2 j2 i1 t1 l1 c1 r1 x1 Q' J2 (Hd2 j2 O2 (le_n _)) Un2 I1 W1 Lk1). }
    exfalso. assert (j1 <> i2) as Z1 by (intros ->; congruence). assert (j2 <> i1) as Z2 by (intros ->; congruence).
    apply (never_both md t1 t2 (S (Nat.max i1 i2)) Nt).
    + intros ->. exact Lk2.
    + apply Hd1; lia.
    + apply Hd2; lia.
Qed.
End R.

(* ---- theorems ---- *)
(* All that a writer does happens before all that another writer or reader does, or the other way round. *)
Theorem C49_exclusive T G a n M md t1 l1 u1 t2 l2 u2 : t_ie T = None -> t_wf T -> execution T G -> cells_client G -> rw_client T G a n M ->
  section_of G a n M Writing t1 l1 u1 -> section_of G a n M md t2 l2 u2 -> (t1, l1) <> (t2, l2) ->
  (forall x y, inside G x t1 l1 u1 -> inside G y t2 l2 u2 -> happens_before G x y) \/ (forall x y, inside G x t1 l1 u1 -> inside G y t2 l2 u2 -> happens_before G y x).
Proof.
  intros Ie W X C K. destruct (C48_history T G a n Ie W X C) as (l & v' & Hi & _ & Mem & Pj & Po & Sy). rewrite (rw_init _ _ _ _ _ K) in Hi.
  exact (exclusive T G a n M C K l v' Hi Mem Pj Po Sy md t1 l1 u1 t2 l2 u2).
Qed.
(* Hence a reader sees everything or nothing of what a writer has done: it reads what the writer has left or something later, or else nothing the writer writes. *)
Theorem C49_consistent T G a n M t1 l1 u1 t2 l2 u2 : t_ie T = None -> t_wf T -> execution T G -> cells_client G -> rw_client T G a n M ->
  section_of G a n M Writing t1 l1 u1 -> section_of G a n M Reading t2 l2 u2 -> (t1, l1) <> (t2, l2) ->
  (forall d e b, inside G d t1 l1 u1 -> inside G e t2 l2 u2 -> solid G d -> solid G e -> writes_b G d b -> reads_b G e b -> exists w, g_rf G b w e /\ (w = d \/ g_co G b d w)) \/
  (forall d e b w0, inside G d t1 l1 u1 -> inside G e t2 l2 u2 -> solid G d -> solid G e -> writes_b G d b -> g_rf G b w0 e -> w0 <> d /\ g_co G b w0 d).
Proof.
  intros Ie W X C K S1 S2 Ne. destruct (C49_exclusive T G a n M Reading t1 l1 u1 t2 l2 u2 Ie W X C K S1 S2 Ne) as [H|H]; [left|right].
  - intros d e b Id Je Sd Se. exact (C37_write_read T G Ie W X d e b (H d e Id Je) Sd Se).
  - intros d e b w0 Id Je Sd Se Wd F. exact (C37_read_write T G Ie W X e d b (H d e Id Je) Se Sd w0 F Wd).
Qed.
