(* C24 - C28: what the ordering argument of a call guarantees. *)
From Verif Require Import SeqCst.
From Coq Require Import Permutation Relations.Operators_Properties.

(* [M] = ordering rules of the target's instruction set, [L] = accesses and fences of a thread: the [i]-th happens before the [j]-th *)
Notation happens_first M L i j := (lo M L i j).

(* ---- C24 / C27 ---- *)
(* The thread executes [pre], then the call [c], then [post].  If [c] reads memory and the ordering in force acquires, the read of the call
   exists and every later access of the thread happens after it. *)
Theorem C24_acquire T c its r : call_items T c its r -> is_store c = false -> acquires (eff c r) = true ->
  (exists i, op_read its i) /\
  forall pre post i j v, op_read its i -> at_ (pre ++ its ++ post) j v -> (length pre + length its <= j)%nat ->
    happens_first (arch_mm T) (pre ++ its ++ post) (length pre + i) j.
Proof.
  intros C N A. pose proof (ord_calls _ _ _ _ (all_ord T) C) as O. split; [exact (o_reads _ _ _ _ _ _ _ O N)|].
  intros pre post i j v R V J. eapply tailed_lo; eauto. exact (o_acq _ _ _ _ _ _ _ O N A i R).
Qed.
(* On failure compare_exchange acquires if its failure ordering does, whatever the success ordering *)
Theorem C27_failure_acquire T c its n s f a old new v : (c = OCas n s f a old new \/ c = OCasWeak n s f a old new) ->
  call_items T c its (RCas v false) -> acquires f = true ->
  (exists i, op_read its i) /\
  forall pre post i j v, op_read its i -> at_ (pre ++ its ++ post) j v -> (length pre + length its <= j)%nat ->
    happens_first (arch_mm T) (pre ++ its ++ post) (length pre + i) j.
Proof. intros E C A. apply (C24_acquire T c its (RCas v false)); auto; destruct E; subst; auto. Qed.

(* ---- C25 ---- *)
(* every write of a releasing call happens after every earlier access of the thread; a store has a write *)
Theorem C25_release T c its r : call_items T c its r -> releases (weff c) = true ->
  (is_store c = true -> exists k, is_write its k) /\
  forall pre post k j v, is_write its k -> at_ (pre ++ its ++ post) j v -> (j < length pre)%nat ->
    happens_first (arch_mm T) (pre ++ its ++ post) j (length pre + k).
Proof.
  intros C A. pose proof (ord_calls _ _ _ _ (all_ord T) C) as O. split; [intros S; destruct (o_store _ _ _ _ _ _ _ O S) as (k & K); exists k; apply K|].
  intros pre post k j v W V J. eapply headed_lo; eauto. exact (o_rel _ _ _ _ _ _ _ O A k W).
Qed.

(* ---- C28 ---- *)
(* In an execution on target [T]: a call whose ordering releases, with a write [w], follows access [d] in its thread; a call whose ordering
   acquires, with read [r], precedes access [e] in its thread; [r] takes a byte from the release sequence of [w], that is from [w]
   or from a read-modify-write (of any thread) that has taken it from there.  Then [d] and [e] act on every common byte [b] in this order:
   a read [e] sees the write [d] or a later one, ... *)
Section C28.
Context (T : arch) (G : graph) (X : execution T G).
Context (t1 q1 : nat) (c1 : op) (r1 : rval) (its1 : list item) (t2 q2 : nat) (c2 : op) (r2 : rval) (its2 : list item) (w r d e : eid) (b : Z).
Definition publish : Prop :=
  call_at G t1 q1 c1 r1 its1 /\ releases (weff c1) = true /\ a_write G w t1 q1 its1 /\ before G d t1 q1 /\
  call_at G t2 q2 c2 r2 its2 /\ is_store c2 = false /\ acquires (eff c2 r2) = true /\ the_read G r t2 q2 its2 /\ after G e t2 q2 /\
  synchronizes G w r /\ solid G d /\ solid G e.
Lemma pub_ends : publish -> exists w1 x1, rel_ok T G t1 q1 w1 /\ acq_ok T G t2 q2 x1 /\ (po w1 x1 \/ far T G w1 x1).
Proof.
  intros (C1 & Rl & Hw & Bd & C2 & N & Aq & Hr & Ae & Sy & Sd & Se). destruct (sync_cases T G X _ _ _ _ _ C2 N r Hr Aq w Sy) as (w1 & x1 & L & _ & Q & S).
  exists w1, x1. split; [exact (rel_later T G X _ _ _ _ _ _ _ C1 Rl Hw L)|]. auto.
Qed.
Theorem C28_write_read : publish -> writes_b G d b -> reads_b G e b -> exists w', g_rf G b w' e /\ (w' = d \/ g_co G b d w').
Proof.
  intros Pb. destruct (pub_ends Pb) as (w1 & x1 & Hw' & Hr' & Sy'). destruct Pb as (C1 & Rl & Hw & Bd & C2 & N & Aq & Hr & Ae & Sy & Sd & Se). intros W R. apply (sees T G X); auto. intros F.
  destruct W as (u & U & _), R as (v & V & _).
  apply (no_back T G X t1 q1 t2 q2 w1 x1 Hw' Hr' Sy' b d e u v); auto. right. right. exact F.
Qed.
(* ... a write [e] overwrites the write [d], ... *)
Theorem C28_write_write : publish -> writes_b G d b -> writes_b G e b -> g_co G b d e.
Proof.
  intros Pb. destruct (pub_ends Pb) as (w1 & x1 & Hw' & Hr' & Sy'). destruct Pb as (C1 & Rl & Hw & Bd & C2 & N & Aq & Hr & Ae & Sy & Sd & Se). intros W R. pose proof W as (u & U & _). pose proof R as (v & V & _).
  apply (co_or T G X); auto.
  - intros ->. destruct (ordered_before T G X t1 q1 t2 q2 w1 x1 Hw' Hr' Sy' d d) as [H|[_ H]]; auto. lia.
  - intros F. apply (no_back T G X t1 q1 t2 q2 w1 x1 Hw' Hr' Sy' b d e u v); auto. right. left. exact F.
Qed.
(* ... a read [e] does not see anything older than the read [d] did, ... *)
Theorem C28_read_read w0 : publish -> g_rf G b w0 d -> reads_b G e b -> exists w', g_rf G b w' e /\ (w' = w0 \/ g_co G b w0 w').
Proof.
  intros Pb. destruct (pub_ends Pb) as (w1 & x1 & Hw' & Hr' & Sy'). destruct Pb as (C1 & Rl & Hw & Bd & C2 & N & Aq & Hr & Ae & Sy & Sd & Se). intros F R. destruct (rf_ends T G X _ _ _ F) as [W0 (u & U & _)]. pose proof R as (v & V & _).
  apply (sees T G X); auto. apply (no_back_read T G X t1 q1 t2 q2 w1 x1 Hw' Hr' Sy' b d e w0 u v); auto.
Qed.
(* ... and a write [e] comes too late for the read [d]. *)
Theorem C28_read_write w0 : publish -> g_rf G b w0 d -> writes_b G e b -> w0 <> e /\ g_co G b w0 e.
Proof.
  intros Pb. destruct (pub_ends Pb) as (w1 & x1 & Hw' & Hr' & Sy'). destruct Pb as (C1 & Rl & Hw & Bd & C2 & N & Aq & Hr & Ae & Sy & Sd & Se). intros F R. destruct (rf_ends T G X _ _ _ F) as [W0 (u & U & _)]. pose proof R as (v & V & _).
  assert (w0 <> e) as Ne.
  { intros ->. apply (no_back T G X t1 q1 t2 q2 w1 x1 Hw' Hr' Sy' b d e u v); auto. left. exact F. }
  split; auto. apply (co_or T G X); auto. apply (no_back_read T G X t1 q1 t2 q2 w1 x1 Hw' Hr' Sy' b d e w0 u v); auto.
Qed.
(* the value: if nothing is written to the byte after [d], [e] reads exactly the value [d] wrote *)
Theorem C28_message u v : publish -> ev_at G d u -> e_w u = true -> covers u b -> ev_at G e v -> e_w v = false -> covers v b ->
  (forall w', ~ g_co G b d w') -> e_b v b = e_b u b.
Proof.
  intros P U Wu Cu V Wv Cv Last. destruct C28_write_read as (w' & F & [->|O]); auto; [exists u; auto|exists v; auto| |exfalso; exact (Last w' O)].
  destruct (rf_wf _ (ex_sane _ _ X) _ _ _ F) as (u' & v' & U' & _ & _ & V' & _ & _ & E). unfold ev_at, at_ in *. congruence.
Qed.
End C28.

(* ---- C26 ---- *)
(* the order demanded by sequential consistency has no cycle *)
Theorem C26_acyclic T G : t_wf T -> execution T G -> forall x, ~ clos_trans _ (sc_before G) x x.
Proof. intros W X. exact (sc_acyclic T G X W). Qed.
(* store buffering: thread [t1] stores to A then loads B, thread [t2] stores to B then loads A; not both loads miss the other's store *)
Theorem C26_store_buffering T G t1 qa qb' cA ca' t2 qb qa' cB cb' wA rB wB rA ba bb : t_wf T -> execution T G ->
  sc_access G wA t1 qa cA -> sc_access G rB t1 qb' cb' -> sc_access G wB t2 qb cB -> sc_access G rA t2 qa' ca' ->
  op_cell cA = op_cell ca' -> op_cell cB = op_cell cb' -> in_cell cA ba -> in_cell cB bb -> po wA rB -> po wB rA ->
  ~ (fr G bb rB wB /\ fr G ba rA wA).
Proof.
  intros W X A1 A2 B1 B2 Ea Eb Ia Ib P1 P2 [F1 F2]. apply (C26_acyclic T G W X wA).
  apply t_trans with rB; [apply ct1; exists t1, qa, cA, t1, qb', cb'; auto|].
  apply t_trans with wB; [apply ct1; exists t1, qb', cb', t2, qb, cB; repeat split; auto; right; split; auto; exists bb; split; [unfold in_cell in *; now rewrite <- Eb|auto]|].
  apply t_trans with rA; [apply ct1; exists t2, qb, cB, t2, qa', ca'; auto|].
  apply ct1; exists t2, qa', ca', t1, qa, cA; repeat split; auto; right; split; auto; exists ba; split; [unfold in_cell in *; now rewrite <- Ea|auto].
Qed.

(* an interleaving: [x] comes before [y] in the list *)
Definition precedes {A} (S : list A) (x y : A) : Prop := exists l1 l2 l3, S = l1 ++ x :: l2 ++ y :: l3.
Lemma minimal {A} (R : A -> A -> Prop) : (forall x y, R x y \/ ~ R x y) -> (forall x y z, R x y -> R y z -> R x z) -> (forall x, ~ R x x) ->
  forall l, l <> [] -> exists m, In m l /\ forall z, In z l -> ~ R z m.
Proof.
  intros D Tr Ir. induction l as [|a l IH]; [congruence|]. intros _. destruct l as [|b l].
  - exists a. split; [left; auto|]. intros z [->|[]]. apply Ir.
  - destruct (IH ltac:(congruence)) as (m & I & H). destruct (D a m) as [Y|N].
    + exists a. split; [left; auto|]. intros z [<-|Z]; [apply Ir|]. intros K. exact (H z Z (Tr _ _ _ K Y)).
    + exists m. split; [right; auto|]. intros z [<-|Z]; auto.
Qed.
Lemma precedes_cons {A} (S : list A) a x y : precedes S x y -> precedes (a :: S) x y.
Proof. intros (l1 & l2 & l3 & ->). exists (a :: l1), l2, l3. reflexivity. Qed.
Lemma linearize {A} (R : A -> A -> Prop) : (forall x y, R x y \/ ~ R x y) -> (forall x y z, R x y -> R y z -> R x z) -> (forall x, ~ R x x) ->
  forall n l, length l = n -> exists S, Permutation l S /\ forall x y, In x l -> In y l -> R x y -> precedes S x y.
Proof.
  intros D Tr Ir. induction n as [|n IH]; intros l E.
  - destruct l; [|discriminate E]. exists []. split; [constructor|]. intros x y [].
  - destruct (minimal R D Tr Ir l) as (m & I & H); [intros ->; discriminate E|]. destruct (in_split _ _ I) as (l1 & l2 & ->).
    destruct (IH (l1 ++ l2)) as (S & P & K); [rewrite app_length in *; cbn in E; lia|].
    exists (m :: S). assert (Permutation (l1 ++ m :: l2) (m :: S)) as Pm by (apply Permutation_trans with (m :: l1 ++ l2); [symmetry; apply Permutation_middle|constructor; auto]).
    split; auto. intros x y Ix Iy Rxy. assert (forall z, In z (l1 ++ m :: l2) -> z = m \/ In z (l1 ++ l2)) as Q.
    { intros z Z. apply in_app_or in Z. destruct Z as [Z|[Z|Z]]; auto; right; apply in_or_app; auto. }
    destruct (Q y Iy) as [->|Jy]; [exfalso; exact (H x Ix Rxy)|]. destruct (Q x Ix) as [->|Jx]; [|apply precedes_cons; auto].
    apply (Permutation_in _ P) in Jy. destruct (in_split _ _ Jy) as (k1 & k2 & ->). exists [], k1, k2. reflexivity.
Qed.
(* Any finite set of accesses of SeqCst calls can be put in one order compatible with every thread's program order and with all
   communication between them.  (The first hypothesis is the instance of the excluded middle that is needed.) *)
Theorem C26_access_order T G : t_wf T -> execution T G -> (forall x y, clos_trans _ (sc_before G) x y \/ ~ clos_trans _ (sc_before G) x y) ->
  forall l, exists S, Permutation l S /\ forall x y, In x l -> In y l -> sc_before G x y -> precedes S x y.
Proof.
  intros W X D l. destruct (linearize (clos_trans _ (sc_before G)) D) with (n := length l) (l := l) as (S & P & H); auto.
  - intros x y z. apply t_trans.
  - exact (C26_acyclic T G W X).
  - exists S. split; auto. intros x y Ix Iy R. apply H; auto. now apply ct1.
Qed.
(* In any such order (of distinct accesses) each byte read comes from the most recent write: between a write [w] and a read [r] that takes
   byte [b] from it lies no other write of the cell by a SeqCst call; and before a read that sees the initial value lies none at all. *)
Lemma precedes_asym {A} (S : list A) x y : NoDup S -> precedes S x y -> precedes S y x -> False.
Proof.
  intros N (l1 & l2 & l3 & E) (k1 & k2 & k3 & F). rewrite E in F.
  assert (forall (l1 l2 k1 k2 : list A) a, NoDup (l1 ++ a :: l2) -> l1 ++ a :: l2 = k1 ++ a :: k2 -> l1 = k1 /\ l2 = k2) as U.
  { clear. induction l1 as [|u l1 IH]; intros l2 k1 k2 a N E.
    - destruct k1 as [|u k1]; cbn in E; [injection E; auto|]. injection E as <- E. exfalso. cbn in N. apply NoDup_cons_iff in N. destruct N as [N _]. apply N. rewrite E. apply in_or_app. right. left. auto.
    - destruct k1 as [|v k1]; cbn in E.
      + injection E as -> E. exfalso. cbn in N. apply NoDup_cons_iff in N. destruct N as [N _]. apply N. apply in_or_app. right. left. auto.
      + injection E as <- E. cbn in N. apply NoDup_cons_iff in N. destruct N as [_ N]. destruct (IH _ _ _ _ N E) as [-> ->]. auto. }
  assert (F' : l1 ++ x :: l2 ++ y :: l3 = (k1 ++ y :: k2) ++ x :: k3) by (rewrite F, <- app_assoc; reflexivity).
  rewrite E in N. destruct (U _ _ _ _ _ N F') as [E1 _]. rewrite E1, <- app_assoc in N. cbn [app] in N. apply NoDup_remove_2 in N. apply N. apply in_or_app. right.
  apply in_or_app. right. right. apply in_or_app. right. left. reflexivity.
Qed.
Theorem C26_reads_latest T G S b w r w2 t q c t' q' c' t2 q2 c2 : execution T G -> NoDup S ->
  (forall x y, In x S -> In y S -> sc_before G x y -> precedes S x y) -> In w S -> In r S -> In w2 S ->
  sc_access G w t q c -> sc_access G r t' q' c' -> sc_access G w2 t2 q2 c2 -> op_cell c = op_cell c' -> op_cell c2 = op_cell c' -> in_cell c' b ->
  g_rf G b w r -> writes_b G w2 b -> w2 <> w -> ~ (precedes S w w2 /\ precedes S w2 r).
Proof.
  intros X Nd H Iw Ir I2 A B C E1 E2 I F W2 Ne [P1 P2]. pose proof (ex_sane _ _ X) as Sa. destruct (rf_ends T G X _ _ _ F) as [Ww Rr].
  destruct (co_total _ Sa b w2 w W2 Ww Ne) as [O|O].
  - apply (precedes_asym S w w2 Nd P1). apply H; auto. exists t2, q2, c2, t, q, c. repeat split; auto. right. split; [congruence|]. exists b. split; auto. unfold in_cell in *. now rewrite E2.
  - apply (precedes_asym S w2 r Nd P2). apply H; auto. exists t', q', c', t2, q2, c2. repeat split; auto. right. split; auto. exists b. split; auto. right. left.
    split; auto. split; auto. intros w' F'. now rewrite (rf_one _ Sa _ _ _ _ F' F).
Qed.
Theorem C26_reads_initial T G S b r w2 t' q' c' t2 q2 c2 : execution T G -> NoDup S ->
  (forall x y, In x S -> In y S -> sc_before G x y -> precedes S x y) -> In r S -> In w2 S ->
  sc_access G r t' q' c' -> sc_access G w2 t2 q2 c2 -> op_cell c2 = op_cell c' -> in_cell c' b ->
  reads_b G r b -> (forall w, ~ g_rf G b w r) -> writes_b G w2 b -> ~ precedes S w2 r.
Proof.
  intros X Nd H Ir I2 B C E2 I R F W2 P2. apply (precedes_asym S w2 r Nd P2). apply H; auto.
  exists t', q', c', t2, q2, c2. repeat split; auto. right. split; auto. exists b. split; auto. right. left.
  split; auto. split; auto. intros w' F'. exfalso. exact (F _ F').
Qed.
