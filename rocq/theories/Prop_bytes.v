(* C08: partially uninitialised values go through the cells byte by byte. *)
From Verif Require Import Foot.
From Verif Require Import Layout Prop_layout Conc ConcProofs ApiProofs All_atomic PropSpec.

(* the values a caller passes, some bytes of which may be uninitialised; the machine gets integers in which those bytes are arbitrary *)
Inductive args := ANone | AVal (v : aval) | ACmp (old new : aval).
Definition passes (e : endian) (g : args) (c : op) : Prop :=
  let fits n v z := Z.of_nat (length v) = n /\ may_hold e v z in
  match c, g with
  | OLoad _ _ _, ANone => True
  | OStore n _ _ z, AVal v | OSwap n _ _ z, AVal v => fits n v z
  | OCas n _ _ _ zo zn, ACmp old new | OCasWeak n _ _ _ zo zn, ACmp old new => fits n old zo /\ fits n new zn
  | _, _ => False
  end.
(* what a call that took effect with result [r] writes to its cell *)
Definition written (g : args) (c : op) (r : rval) : option aval :=
  match c, g, r with
  | (OStore _ _ _ _ | OSwap _ _ _ _), AVal v, _ => Some v
  | (OCas _ _ _ _ _ _ | OCasWeak _ _ _ _ _ _), ACmp _ new, RCas _ true => Some new
  | _, _, _ => None
  end.
Definition afterwards (am : amem) (g : args) (c : op) (r : rval) : amem :=
  match written g c r with Some v => place am (fst (op_cell c)) v | None => am end.
(* the byte of [z] that belongs at offset [i] of an [n]-byte cell *)
Definition byte_at (e : endian) (n z i : Z) : Z := (z / 2 ^ (8 * match e with LE => i | BE => n - 1 - i end)) mod 256.
(* every initialised byte of the cell is in the result; and compare_exchange succeeds only if no byte initialised on both sides differs *)
Definition shows (e : endian) (am : amem) (g : args) (c : op) (r : rval) : Prop :=
  let '(a, n) := op_cell c in
  match r with
  | RVal z | RCas z _ => forall i x, 0 <= i < n -> am (a + i) = Some x -> byte_at e n z i = x
  | RUnit => True
  end /\
  match g, r with
  | ACmp old _, RCas _ true => forall i x y, 0 <= i < n -> am (a + i) = Some x -> nth (Z.to_nat i) old None = Some y -> x = y
  | _, _ => True
  end.
(* replaying the effects in the order [A]; [val k]: the values passed to call [k]; other code writes whole initialised bytes *)
Inductive transports (e : endian) (val : nat -> args) : amem -> list aev -> Prop :=
| t_nil am : transports e val am []
| t_inv am t k c l : transports e val am l -> transports e val am (AInv t k c :: l)
| t_ret am k r l : transports e val am l -> transports e val am (ARet k r :: l)
| t_lin am k c r l : shows e am (val k) c r -> transports e val (afterwards am (val k) c r) l -> transports e val am (ALin k c r :: l)
| t_plain am m m' l : transports e val (fun x => if m x =? m' x then am x else Some (m' x)) l -> transports e val am (APlain m m' :: l).

Definition agrees (am : amem) (m : mem) : Prop := forall a x, am a = Some x -> m a = x.
Lemma rd_byte e m a n i : wf_mem m -> 0 <= n -> 0 <= i < n -> byte_at e n (rd e m a n) i = m (a + i).
Proof. intros W Hn Hi. destruct (cell_rd e a n m W Hn) as [_ H]. unfold byte_at. now rewrite H. Qed.
Lemma num_byte e v z i x : may_hold e v z -> 0 <= i < Z.of_nat (length v) -> nth (Z.to_nat i) v None = Some x -> byte_at e (Z.of_nat (length v)) z i = x.
Proof.
  assert (forall l j, Forall (fun b => 0 <= b < 256) l -> (j < length l)%nat -> (le_num l / 2 ^ (8 * Z.of_nat j)) mod 256 = nth j l 0) as K.
  { induction l as [|b l IH]; intros j R Hj; [cbn in Hj; lia|]. inversion R as [|? ? Hb R']; subst. destruct j as [|j].
    - cbn [nth le_num]. rewrite Z.mul_0_r, Z.pow_0_r, Z.div_1_r. rewrite (Z.mul_comm 256), Z.mod_add by lia. now apply Z.mod_small.
    - cbn [nth le_num]. replace (8 * Z.of_nat (S j)) with (8 + 8 * Z.of_nat j) by lia. rewrite Z.pow_add_r by lia. change (2 ^ 8) with 256.
      rewrite <- Z.div_div by (try lia; apply Z.pow_pos_nonneg; lia). rewrite (Z.mul_comm 256), Z.div_add by lia. rewrite (Z.div_small b) by lia. apply IH; auto. cbn in Hj. lia. }
  intros (bs & F & ->) Hi N. pose proof (froz_len _ _ F) as L. pose proof (froz_range _ _ F) as R.
  assert (nth (Z.to_nat i) bs 0 = x) as E.
  { assert (Forall2 frozen v bs -> forall j, nth j v None = Some x -> nth j bs 0 = x) as Q; [|apply (Q F); auto].
    clear. induction 1 as [|a b v bs [_ H] F IH]; intros j N; [destruct j; discriminate N|]. destruct j as [|j]; cbn in *; [subst; auto|auto]. }
  unfold byte_at. destruct e; cbn [num].
  - rewrite <- E, <- K by (auto; lia). do 3 f_equal. lia.
  - assert (Z.to_nat (Z.of_nat (length v) - 1 - i) < length (rev bs))%nat as Hj by (rewrite rev_length; lia).
    pose proof (K (rev bs) (Z.to_nat (Z.of_nat (length v) - 1 - i)) (Forall_rev R) Hj) as Q. rewrite Z2Nat.id in Q by lia. rewrite Q, rev_nth by (rewrite rev_length in Hj; lia).
    rewrite <- E. f_equal. lia.
Qed.
Lemma wr_byte e m a n z x : wr e m a n z x = if (a <=? x) && (x <? a + n) then byte_at e n z (x - a) else m x.
Proof.
  unfold wr, byte_at. destruct ((a <=? x) && (x <? a + n)) eqn:B; auto. unfold byteof. apply andb_true_iff in B. destruct B as [B1 B2]. apply Z.leb_le in B1. apply Z.ltb_lt in B2.
  rewrite Z.shiftr_div_pow2 by (destruct e; cbn [boff]; lia). destruct e; reflexivity.
Qed.
Lemma agrees_place e am m a n v z m' : agrees am m -> Z.of_nat (length v) = n -> may_hold e v z -> meq m' (wr e m a n z) -> agrees (place am a v) m'.
Proof.
  intros A L H E x y P. rewrite E, wr_byte. unfold place in P. rewrite L in P. destruct ((a <=? x) && (x <? a + n)) eqn:B; [|auto].
  apply andb_true_iff in B. destruct B as [B1 B2]. apply Z.leb_le in B1. apply Z.ltb_lt in B2. subst n. eapply num_byte; eauto. lia.
Qed.
Lemma op_step e (val : nat -> args) k c r am m m' : wf_mem m -> agrees am m -> passes e (val k) c -> op_spec e c m m' r -> 0 <= snd (op_cell c) ->
  wf_mem m' /\ shows e am (val k) c r /\ agrees (afterwards am (val k) c r) m'.
Proof.
  intros W A P S Hn. unfold shows, afterwards, written, passes in *.
  assert (forall a n, 0 <= n -> forall i x, 0 <= i < n -> am (a + i) = Some x -> byte_at e n (rd e m a n) i = x) as Sh.
  { intros a n H0 i x Hi Hx. rewrite rd_byte by auto. auto. }
  assert (forall m1, meq m1 m -> wf_mem m1 /\ agrees am m1) as Un.
  { intros m1 E. split; [intros y; rewrite E; apply W|]. intros y x Hx. rewrite E. auto. }
  assert (forall a n v z m1, Z.of_nat (length v) = n -> may_hold e v z -> meq m1 (wr e m a n z) -> wf_mem m1 /\ agrees (place am a v) m1) as Wr.
  { intros a n v z m1 L H E. split; [intros y; rewrite E; now apply wf_wr|]. eapply agrees_place; eauto. }
  destruct c as [n o a|n o a z|n o a z|n s f a zo zn|n s f a zo zn], r as [z'| |z' ok]; cbn [op_spec op_cell fst snd] in *; try contradiction.
  - destruct S as [-> E]. destruct (Un m' (meq_sym _ _ E)). split; auto. split; [|auto]. split; auto. destruct (val k); auto.
  - destruct (val k) as [|v|]; try contradiction. destruct P as [L H]. destruct (Wr a n v z m' L H S). auto.
  - destruct (val k) as [|v|]; try contradiction. destruct P as [L H]. destruct S as [-> S]. destruct (Wr a n v z m' L H S). auto.
  - destruct (val k) as [| |old new]; try contradiction. destruct P as [[Lo Ho] [Ln Hw]]. destruct S as [Ez S]. cbn [fst snd] in Ez, S. subst z'. destruct ok.
    + destruct S as [Eo S]. destruct (Wr a n new zn m' Ln Hw S). split; auto. split; auto. split; auto. intros i x y Hi Hx Hy.
      rewrite <- (Sh a n Hn i x Hi Hx), Eo. rewrite <- Lo. eapply num_byte; eauto. lia.
    + destruct S as [_ S]. destruct (Un m' S). auto.
  - destruct (val k) as [| |old new]; try contradiction. destruct P as [[Lo Ho] [Ln Hw]]. destruct S as [Ez S]. cbn [fst snd] in Ez, S. subst z'. destruct ok.
    + destruct S as [Eo S]. destruct (Wr a n new zn m' Ln Hw S). split; auto. split; auto. split; auto. intros i x y Hi Hx Hy.
      rewrite <- (Sh a n Hn i x Hi Hx), Eo. rewrite <- Lo. eapply num_byte; eauto. lia.
    + destruct (Un m' S). auto.
Qed.
Lemma legal_transports e (val : nat -> args) A : forall m mf am, legal e m A mf -> wf_mem m -> agrees am m ->
  (forall k c r, In (ALin k c r) A -> passes e (val k) c /\ 0 <= snd (op_cell c)) -> (forall m1 m2, In (APlain m1 m2) A -> wf_mem m2) -> transports e val am A.
Proof.
  induction A as [|x A IH]; intros m mf am L W Ag P Q; [constructor|].
  assert (forall k c r, In (ALin k c r) A -> passes e (val k) c /\ 0 <= snd (op_cell c)) as P' by (intros; eapply P; right; eauto).
  assert (forall m1 m2, In (APlain m1 m2) A -> wf_mem m2) as Q' by (intros; eapply Q; right; eauto).
  inversion L as [|? ? ? ? ? ? L'|? ? ? ? ? L'|? k c r m1 m2 ? ? E S L'|? m1 m2 ? ? E L']; subst.
  - constructor. eauto.
  - constructor. eauto.
  - assert (wf_mem m1) as W1 by (intros y; rewrite <- E; apply W). assert (agrees am m1) as A1 by (intros y z H; rewrite <- E; auto).
    destruct (P k c r) as [P1 P2]; [left; auto|]. destruct (op_step e val k c r am m1 m2 W1 A1 P1 S P2) as (W2 & Sh & A2). constructor; [auto|]. eapply IH; eauto.
  - constructor. eapply IH; [exact L'|apply (Q m1 m2); left; auto| |auto|auto]. intros y z H. destruct (m1 y =? m2 y) eqn:B; [|congruence]. apply Z.eqb_eq in B. rewrite <- B, <- E. auto.
Qed.
(* what follows from linearizability alone *)
Lemma lin_transports e m0 h mf (val : nat -> args) am0 : linearizable e m0 h mf -> wf_mem m0 ->
  (forall t k c, In (EInv t k c) h -> passes e (val k) c) -> (forall t k c, In (EInv t k c) h -> 0 <= snd (op_cell c)) ->
  (forall m m', In (EPlain m m') h -> wf_mem m') -> (forall a x, am0 a = Some x -> m0 a = x) ->
  exists A : list aev,
    flat_map view_a A = flat_map view_e h /\ legal e m0 A mf /\
    (forall k, let l := filter (about k) A in
       l = [] \/ exists t c, l = [AInv t k c] \/ exists r, l = [AInv t k c; ALin k c r] \/ l = [AInv t k c; ALin k c r; ARet k r]) /\
    transports e val am0 A.
Proof.
  intros (A & V & L & F) Wm Hv Ar Pl Ha. exists A. split; auto. split; auto. split; auto.
  eapply legal_transports; eauto.
  - intros k c r I. assert (In (ALin k c r) (filter (about k) A)) as I' by (apply filter_In; split; auto; cbn; apply Nat.eqb_refl).
    assert (exists t, In (AInv t k c) A) as (t & J).
    { specialize (F k). cbv zeta in F. destruct F as [F|(t & c' & [F|(r' & [F|F])])]; rewrite F in I'; cbn in I'.
      - contradiction.
      - destruct I' as [I'|[]]. discriminate I'.
      - destruct I' as [I'|[I'|[]]]; [discriminate I'|]. injection I' as <- <-. exists t. assert (In (AInv t k c') (filter (about k) A)) as Q by (rewrite F; left; auto). apply filter_In in Q. apply Q.
      - destruct I' as [I'|[I'|[I'|[]]]]; try discriminate I'. injection I' as <- <-. exists t. assert (In (AInv t k c') (filter (about k) A)) as Q by (rewrite F; left; auto). apply filter_In in Q. apply Q. }
    assert (In (EInv t k c) h) as E.
    { assert (In (VInv t k c) (flat_map view_a A)) as Q by (apply in_flat_map; exists (AInv t k c); split; auto; left; auto).
      rewrite V in Q. apply in_flat_map in Q. destruct Q as (x & Ix & Vx). destruct x; cbn in Vx; try contradiction; destruct Vx as [Vx|[]]; try discriminate Vx. injection Vx as <- <- <-. auto. }
    split; eauto.
  - intros m1 m2 I. assert (In (VPlain m1 m2) (flat_map view_a A)) as Q by (apply in_flat_map; exists (APlain m1 m2); split; auto; left; auto).
    rewrite V in Q. apply in_flat_map in Q. destruct Q as (x & Ix & Vx). destruct x; cbn in Vx; try contradiction; destruct Vx as [Vx|[]]; try discriminate Vx. injection Vx as <- <-. eauto.
Qed.
(* Any number of threads; call number [k] is passed the values [val k].  The history has a linearization such that, with the calls taken in
   that order, every result shows every byte that is initialised, exactly as it was last written. *)
Theorem C08_bytes_transported T m0 h S (val : nat -> args) am0 : t_ie T = None -> t_wf T -> wf_mem m0 -> steps T (init m0) h S ->
  (forall t k c, In (EInv t k c) h -> passes (t_e T) (val k) c) -> (forall a x, am0 a = Some x -> m0 a = x) ->
  exists A : list aev,
    flat_map view_a A = flat_map view_e h /\ legal (t_e T) m0 A (s_mem S) /\
    (forall k, let l := filter (about k) A in
       l = [] \/ exists t c, l = [AInv t k c] \/ exists r, l = [AInv t k c; ALin k c r] \/ l = [AInv t k c; ALin k c r; ARet k r]) /\
    transports (t_e T) val am0 A.
Proof.
  intros HT W Wm St Hv Ha. apply (lin_transports (t_e T) m0 h (s_mem S) val am0); auto.
  - now apply system_linearizable.
  - clear - St. induction St as [|S0 e S1 l S2 H _ IH]; [intros ? ? ? []|]. intros t k c [->|I]; [inversion H; subst; match goal with X : op_impl T _ = Impl _ |- _ => pose proof (impl_pos _ _ _ X); rewrite ?as_done_cell; lia end|eauto].
  - clear - St. induction St as [|S0 e S1 l S2 H _ IH]; [intros ? ? []|]. intros m m' [->|I]; [inversion H; subst; auto|eauto].
Qed.
