(* The vocabulary in which the properties are stated: bytes of memory, the steps of a call, nothing else. *)
From Verif Require Import Api.

(* the [n] bytes at [a] in memory [m] are those of the integer [v], in byte order [e] *)
Definition cell_is (e : endian) (a n v : Z) (m : mem) : Prop :=
  0 <= v < 2 ^ (8 * n) /\
  forall i, 0 <= i < n -> m (a + i) = (v / 2 ^ (8 * match e with LE => i | BE => n - 1 - i end)) mod 256.
Definition unchanged (m m' : mem) : Prop := forall x, m' x = m x.
(* the cell gets [v] and no other byte changes *)
Definition becomes (e : endian) (a n v : Z) (m m' : mem) : Prop :=
  cell_is e a n v m' /\ forall x, x < a \/ a + n <= x -> m' x = m x.
(* [t] lists a call's own steps (memory before, memory after); at exactly one of them [P] holds, the others change nothing *)
Definition one_instant (t : trace) (P : mem -> mem -> Prop) : Prop :=
  exists before m m' after, t = before ++ (m, m') :: after /\ P m m' /\
    forall x y, In (x, y) before \/ In (x, y) after -> unchanged x y.
Definition no_effect (t : trace) : Prop := forall x y, In (x, y) t -> unchanged x y.

(* orderings as sets of guarantees *)
Definition acquires (o : ordering) : bool := match o with Acquire | AcqRel | SeqCst => true | _ => false end.
Definition releases (o : ordering) : bool := match o with Release | AcqRel | SeqCst => true | _ => false end.
Definition total_order (o : ordering) : bool := match o with SeqCst => true | _ => false end.
Definition at_least (o o' : ordering) : Prop :=
  (acquires o' = true -> acquires o = true) /\ (releases o' = true -> releases o = true) /\ (total_order o' = true -> total_order o = true).
(* orderings that make no sense for a call *)
Definition senseless (c : op) : Prop :=
  match c with
  | OLoad _ o _ => o = Release \/ o = AcqRel
  | OStore _ o _ _ => o = Acquire \/ o = AcqRel
  | OSwap _ _ _ _ => False
  | OCas _ _ f _ _ _ | OCasWeak _ _ f _ _ _ => f = Release \/ f = AcqRel
  end.

(* ---- connection with the definitions used in the proofs ---- *)
Lemma cell_rd e a n m : wf_mem m -> 0 <= n -> cell_is e a n (rd e m a n) m.
Proof.
  intros W Hn. split; [apply rd_range; auto|]. intros i Hi.
  assert (wr e m a n (rd e m a n) (a + i) = m (a + i)) as E by (apply wr_rd_same; auto; apply low_id, rd_range; auto).
  rewrite <- E. unfold wr. replace ((a <=? a + i) && (a + i <? a + n)) with true.
  2:{ symmetry. apply andb_true_iff. split; [apply Z.leb_le|apply Z.ltb_lt]; lia. }
  replace (a + i - a) with i by lia. unfold byteof. rewrite Z.shiftr_div_pow2 by (destruct e; cbn [boff]; lia). destruct e; reflexivity.
Qed.
Lemma cell_unique e a n v m : wf_mem m -> 0 <= n -> cell_is e a n v m -> rd e m a n = v.
Proof.
  intros W Hn [Hv H]. rewrite <- (low_id (8 * n) v) by auto. rewrite <- (rd_wr_same e m a n v) by auto. apply rd_ext.
  intros i Hi. unfold wr. replace ((a <=? a + i) && (a + i <? a + n)) with true.
  2:{ symmetry. apply andb_true_iff. split; [apply Z.leb_le|apply Z.ltb_lt]; lia. }
  replace (a + i - a) with i by lia. unfold byteof. rewrite Z.shiftr_div_pow2 by (destruct e; cbn [boff]; lia). rewrite H by auto. destruct e; reflexivity.
Qed.
Lemma becomes_wr e a n v m m' : wf_mem m -> 0 <= n -> 0 <= v < 2 ^ (8 * n) -> meq m' (wr e m a n v) -> becomes e a n v m m'.
Proof.
  intros W Hn Hv H. split.
  - pose proof (cell_rd e a n (wr e m a n v) (wf_wr _ _ _ _ _ W) Hn) as [_ C]. rewrite rd_wr_same, low_id in C by auto.
    split; auto. intros i Hi. rewrite H. auto.
  - intros x Hx. rewrite H. apply wr_outside. lia.
Qed.
Lemma lin_instant {A} (sp : mem -> mem -> A -> Prop) (P : mem -> mem -> Prop) t r : Forall (fun st => wf_mem (fst st)) t -> (forall m m', wf_mem m -> sp m m' r -> P m m') -> lin sp t r -> one_instant t P.
Proof.
  intros W H (t1 & m & m' & t2 & -> & S1 & S2 & S). apply Forall_app in W. destruct W as [W1 W2]. inversion W2; subst. cbn in *.
  exists t1, m, m', t2. split; auto. split; [auto|]. intros x y [I|I]; intros z; rewrite Forall_forall in S1, S2; [apply S1 in I|apply S2 in I]; symmetry; apply I.
Qed.
Lemma silent_no_effect t : Forall silent t -> no_effect t.
Proof. intros S x y I z. rewrite Forall_forall in S. apply S in I. symmetry. apply I. Qed.
Lemma lin_no_effect {A} (sp : mem -> mem -> A -> Prop) t r : (forall m m', sp m m' r -> meq m m') -> lin sp t r -> no_effect t.
Proof. intros H (t1 & m & m' & t2 & -> & S1 & S2 & S). apply silent_no_effect, Forall_app. split; auto. constructor; auto. exact (H _ _ S). Qed.
