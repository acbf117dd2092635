(* L3: proofs about executions (Graph.v). *)
From Verif Require Export Graph All_order.

Section P.
Context (T : arch) (G : graph) (X : execution T G).
Notation M := (arch_mm T).

Lemma flat_app a b : flat (a ++ b) = flat a ++ flat b.
Proof. unfold flat. now rewrite map_app, concat_app. Qed.
Lemma seg_split t q s : nth_error (g_thr G t) q = Some s ->
  exists pre post, items G t = pre ++ seg_its s ++ post /\ length pre = base G t q /\ base G t (S q) = (base G t q + length (seg_its s))%nat.
Proof.
  intros H. destruct (nth_error_split _ _ H) as (l1 & l2 & E & L). unfold items, base. rewrite E.
  exists (flat l1), (flat l2). rewrite !flat_app. split; [reflexivity|].
  assert (firstn q (l1 ++ s :: l2) = l1) as F1 by (rewrite <- L; rewrite firstn_app, Nat.sub_diag, firstn_all; cbn; now rewrite app_nil_r).
  assert (firstn (S q) (l1 ++ s :: l2) = l1 ++ [s]) as F2.
  { rewrite <- L. rewrite firstn_app. replace (S (length l1) - length l1)%nat with 1%nat by lia. rewrite firstn_all2 by lia. reflexivity. }
  rewrite F1, F2, flat_app, app_length. split; [reflexivity|]. unfold flat. cbn. now rewrite app_nil_r.
Qed.
Lemma base_mono t q q' : (q <= q')%nat -> (base G t q <= base G t q')%nat.
Proof.
  intros H. unfold base. replace q with (min q q') by lia. rewrite <- firstn_firstn. rewrite <- (firstn_skipn q (firstn q' (g_thr G t))) at 2.
  rewrite flat_app, app_length. lia.
Qed.
Lemma ord_of t q c r its : call_at G t q c r its -> ordered M (arch_mca T) (arch_isync T) (arch_disc T) c r its.
Proof. intros H. apply ord_calls; [apply all_ord|]. exact (ex_calls _ _ X _ _ _ _ _ H). Qed.

(* ---- accesses of a call against the rest of the thread ---- *)
Lemma lift_headed t q c r its x d u k : call_at G t q c r its -> headed M its k -> fst x = t -> snd x = (base G t q + k)%nat ->
  before G d t q -> ev_at G d u -> tlo T G d x.
Proof.
  intros C H F S [Fd Ld] D. destruct (seg_split _ _ _ C) as (pre & post & E & L & _). cbn [seg_its] in E. unfold tlo, ev_at in *. rewrite Fd, F in *. split; [reflexivity|].
  rewrite E in *. rewrite S, <- L. rewrite <- L in Ld. left. eapply headed_lo; eauto.
Qed.
Lemma lift_tailed t q c r its x d u k : call_at G t q c r its -> tailed M its k -> fst x = t -> snd x = (base G t q + k)%nat ->
  after G d t q -> ev_at G d u -> tlo T G x d.
Proof.
  intros C H F S [Fd Ld] D. destruct (seg_split _ _ _ C) as (pre & post & E & L & L'). cbn [seg_its] in *. unfold tlo, ev_at in *. rewrite Fd, F in *. split; [reflexivity|].
  rewrite E in *. rewrite S, <- L. rewrite L', <- L in Ld. left. eapply tailed_lo; eauto.
Qed.
Lemma lift_ffa t q c r its x d u k : call_at G t q c r its -> ffa M its k -> (exists v, at_ its k v) -> fst x = t -> snd x = (base G t q + k)%nat ->
  after G d t q -> ev_at G d u -> tffence T G x d.
Proof.
  intros C H V F S [Fd Ld] D. destruct (seg_split _ _ _ C) as (pre & post & E & L & L'). cbn [seg_its] in *. unfold tffence, ev_at in *. rewrite Fd, F in *. split; [reflexivity|].
  rewrite E in *. rewrite S, <- L. rewrite L', <- L in Ld. eapply ffa_ff; eauto.
Qed.
Lemma lift_ffb t q c r its x d u k : call_at G t q c r its -> ffb M its k -> (exists v, at_ its k v) -> fst x = t -> snd x = (base G t q + k)%nat ->
  before G d t q -> ev_at G d u -> tffence T G d x.
Proof.
  intros C H V F S [Fd Ld] D. destruct (seg_split _ _ _ C) as (pre & post & E & L & L'). cbn [seg_its] in *. unfold tffence, ev_at in *. rewrite Fd, F in *. split; [reflexivity|].
  rewrite E in *. rewrite S, <- L. rewrite <- L in Ld. eapply ffb_ff; eauto.
Qed.
Lemma lift_ev t q c r its x k v : call_at G t q c r its -> fst x = t -> snd x = (base G t q + k)%nat -> at_ its k v -> ev_at G x v.
Proof.
  intros C F S A. destruct (seg_split _ _ _ C) as (pre & post & E & L & _). cbn [seg_its] in E. unfold ev_at. rewrite F, E, S, <- L. now apply nth_ctx.
Qed.

(* ---- coherence ---- *)
Notation S := (ex_sane T G X).
Lemma com_acc b x y : com G b x y -> acc_b G x b /\ acc_b G y b.
Proof.
  assert (forall z, writes_b G z b -> acc_b G z b) as HW by (intros z (v & A & _ & C); exists v; auto).
  assert (forall z, reads_b G z b -> acc_b G z b) as HR by (intros z (v & A & _ & C); exists v; auto).
  intros [H|[H|H]].
  - destruct (rf_wf _ S _ _ _ H) as (v & u & A & _ & C & A' & _ & C' & _). split; eexists; eauto.
  - destruct (co_wf _ S _ _ _ H). auto.
  - destruct H as (R & W & _). auto.
Qed.
Lemma com_irr b x : ~ com G b x x.
Proof. intros H. apply (coherent _ S b x). apply t_step. auto. Qed.
Lemma com_po b x y : com G b x y -> ~ po y x.
Proof.
  intros H P. destruct (com_acc _ _ _ H). apply (coherent _ S b x). apply t_trans with y; apply t_step; [auto|left; split; auto].
Qed.
Lemma com_int b x y : com G b x y -> ~ apart x y -> po x y.
Proof.
  intros H E. unfold apart in E. assert (fst x = fst y) as F by (destruct (Nat.eq_dec (fst x) (fst y)); [auto|contradiction]).
  destruct (lt_eq_lt_dec (snd x) (snd y)) as [[L|L]|L]; [split; auto| |].
  - exfalso. apply (com_irr b x). destruct x, y; cbn in *; subst. exact H.
  - exfalso. apply (com_po b x y H). split; auto.
Qed.
Lemma dec_apart x y : apart x y \/ ~ apart x y.
Proof. unfold apart. destruct (Nat.eq_dec (fst x) (fst y)); [right|left]; auto. Qed.
Lemma fr_rf b r w w' : fr G b r w -> g_rf G b w' r -> g_co G b w' w.
Proof. intros (_ & _ & H) R. auto. Qed.
(* a read that does not miss a write sees it or a later one *)
Lemma sees b x e : writes_b G x b -> reads_b G e b -> ~ fr G b e x -> exists w', g_rf G b w' e /\ (w' = x \/ g_co G b x w').
Proof.
  intros W R N. pose proof R as (u & A & Rd & C). destruct (rf_some _ S _ _ _ A Rd C) as [[w' F]|[N' _]].
  - exists w'. split; auto. destruct (rf_wf _ S _ _ _ F) as (v & u' & Aw & Ww & Cw & _).
    destruct (Nat.eq_dec (fst w') (fst x)) as [E1|E1], (Nat.eq_dec (snd w') (snd x)) as [E2|E2].
    1: left; destruct w', x; cbn in *; now subst.
    all: right; destruct (co_total _ S b w' x) as [O|O]; [exists v; auto|auto|congruence| |auto]; exfalso; apply N; split; [auto|split; [auto|]]; intros w0 F0; now rewrite (rf_one _ S _ _ _ _ F0 F).
  - exfalso. apply N. split; auto. split; auto. intros w' F. exfalso. exact (N' w' F).
Qed.
Lemma co_or b x e : writes_b G x b -> writes_b G e b -> e <> x -> ~ g_co G b e x -> g_co G b x e.
Proof. intros W R N C. destruct (co_total _ S b x e); auto; congruence. Qed.
Lemma rmw_fr b r w : rmw_pair G r w -> reads_b G r b -> writes_b G w b -> fr G b r w.
Proof.
  intros [F R] Rd W. split; auto. split; auto. intros w' H. assert (po r w) as P. { split; auto. destruct R as (v & _ & _ & _ & L & _). exact L. }
  destruct (rf_wf _ S _ _ _ H) as (v & u & A & Ww & Cw & _).
  destruct (Nat.eq_dec (fst w') (fst w)) as [E1|E1], (Nat.eq_dec (snd w') (snd w)) as [E2|E2].
  1: { exfalso. assert (w' = w) as -> by (destruct w', w; cbn in *; now subst). apply (com_po b w r); [left; auto|exact P]. }
  all: destruct (co_total _ S b w' w) as [O|O]; [exists v; auto|auto|congruence|auto|].
  all: exfalso; apply (coherent _ S b w); apply t_trans with w'; [apply t_step; right; right; left; auto|];
    apply t_trans with r; [apply t_step; right; left; auto|apply t_step; left; split; [exact P|]];
    split; [destruct Rd as (z & ? & ? & ?)|destruct W as (z & ? & ? & ?)]; exists z; auto.
Qed.
End P.
