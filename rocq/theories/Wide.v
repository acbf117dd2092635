(* Proof machinery: double-width accesses.  No specifications here. *)
From Verif Require Export Sym ArchCommon UtilsProofs.

Lemma halves_half e k v : 0 <= k -> halves e k (half1 e k v) (half2 e k v) = v.
Proof. intros. unfold halves, half1, half2. destruct e; rewrite low_low by lia; now apply join_low_shiftr. Qed.
Lemma halves_rd e m a n : wf_mem m -> 0 <= n -> halves e (8 * n) (rd e m a n) (rd e m (a + n) n) = rd e m a (2 * n).
Proof. intros Hm Hn. rewrite rd_pair by auto. unfold halves. destruct e; now rewrite rd_low by auto. Qed.
Lemma halves_wr e m a n x y : 0 <= n -> meq (wr e (wr e m a n x) (a + n) n y) (wr e m a (2 * n) (halves e (8 * n) x y)).
Proof. intros. unfold halves. apply wr_pair; auto. Qed.
Lemma rd2_eq e m m' a n : wf_mem m -> wf_mem m' -> 0 <= n -> rd e m a n = rd e m' a n -> rd e m (a + n) n = rd e m' (a + n) n ->
  rd e m a (2 * n) = rd e m' a (2 * n).
Proof. intros H H' Hn E1 E2. rewrite !rd_pair by (auto; lia). rewrite E1, E2. reflexivity. Qed.
Lemma rd2_inv e m m' a n : wf_mem m -> wf_mem m' -> 0 <= n -> rd e m a (2 * n) = rd e m' a (2 * n) ->
  rd e m a n = rd e m' a n /\ rd e m (a + n) n = rd e m' (a + n) n.
Proof.
  intros H H' Hn E. pose proof (rd_inj e m m' a (2 * n) H H' ltac:(lia) E) as I. split; apply rd_ext; intros i Hi.
  - apply I; lia.
  - replace (a + n + i) with (a + (n + i)) by lia. apply I; lia.
Qed.
(* halves determine the value *)
Lemma halves_inj e k x y v : 0 <= k -> 0 <= x < 2 ^ k -> 0 <= y < 2 ^ k ->
  (halves e k x y = v <-> x = half1 e k v /\ y = half2 e k v).
Proof.
  intros Hk Hx Hy. split.
  - intros <-. unfold halves, half1, half2. destruct e.
    + rewrite (low_id _ x) by auto. destruct (split_join k x y Hk Hx); auto.
    + rewrite (low_id _ y) by auto. destruct (split_join k y x Hk Hy); auto.
  - intros [-> ->]. now apply halves_half.
Qed.
Lemma half1_range e k v : 0 <= k -> 0 <= v < 2 ^ (2 * k) -> 0 <= half1 e k v < 2 ^ k.
Proof.
  intros Hk Hv. unfold half1. destruct e; [now apply low_range|].
  rewrite Z.shiftr_div_pow2 by lia. split; [apply Z.div_pos; lia|].
  apply Z.div_lt_upper_bound; [lia|]. rewrite <- Z.pow_add_r by lia. replace (k + k) with (2 * k) by lia. lia.
Qed.
Lemma half2_range e k v : 0 <= k -> 0 <= v < 2 ^ (2 * k) -> 0 <= half2 e k v < 2 ^ k.
Proof. intros. pose proof (half1_range (match e with LE => BE | BE => LE end) k v). unfold half2, half1 in *. destruct e; auto. Qed.
(* where `lo` is the first field of Pair in memory *)
Lemma lo_first t e k v : pair_lo_first t e = true -> pair_lo t e k v = half1 e k v /\ pair_hi t e k v = half2 e k v.
Proof. intros H. unfold pair_lo, pair_hi, hi_first_sig. rewrite H. destruct e; cbn; auto. Qed.
Lemma lo_first_join t e k lo hi : pair_lo_first t e = true -> 0 <= k -> 0 <= lo < 2 ^ k -> 0 <= hi < 2 ^ k ->
  pair_join t e k lo hi = halves e k lo hi.
Proof. intros H Hk Hl Hh. unfold pair_join, halves, hi_first_sig. rewrite H. destruct e; cbn; now rewrite low_id. Qed.
Lemma lo_first_join_half t e k v : pair_lo_first t e = true -> pair_join t e k (half1 e k v) (half2 e k v) = v \/ k < 0.
Proof.
  intros H. destruct (Z.ltb_spec k 0); [auto|left]. destruct (lo_first t e k v H) as [<- <-]. now apply pair_join_split.
Qed.

Ltac scp_case HE :=
  rewrite ?scp_may_hit;
  match goal with |- context [if ?b && ((?x =? ?y) && (?z =? ?w)) then _ else _] =>
    let Ok := fresh "Ok" in let H1 := fresh HE "1" in let H2 := fresh HE "2" in
    destruct (b && ((x =? y) && (z =? w))) eqn:Ok;
    [apply andb_true_iff in Ok; destruct Ok as [_ Ok]; apply andb_true_iff in Ok; destruct Ok as [H1 H2];
     apply Z.eqb_eq in H1; apply Z.eqb_eq in H2 | clear Ok] end.
