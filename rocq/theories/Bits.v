(* L0: bit-level arithmetic on Z.  Registers hold Z values in [0,2^w).            *)
(* Nothing here models a particular file of /repo: it is the arithmetic library.  *)
From Coq Require Export ZArith Lia Bool List.
Export ListNotations.
Open Scope Z_scope.

(* low [k] bits of [v] *)
Definition low (k v : Z) : Z := v mod 2 ^ k.

(* byte number [i] (counted from the least significant) of [v] *)
Definition byteof (v i : Z) : Z := Z.shiftr v (8 * i) mod 256.

(* sign-extend a [k]-bit value to [w] bits ([k <= w]); the result is in [0,2^w) *)
Definition sext (k w v : Z) : Z :=
  low k v + (if Z.testbit v (k - 1) then 2 ^ w - 2 ^ k else 0).

Definition b2z (b : bool) : Z := if b then 1 else 0.

(* ---------------------------------------------------------------- lemmas *)

Lemma low_range k v : 0 <= k -> 0 <= low k v < 2 ^ k.
Proof. intros. unfold low. apply Z.mod_pos_bound. apply Z.pow_pos_nonneg; lia. Qed.

Lemma low_bits k v b : 0 <= k -> 0 <= b ->
  Z.testbit (low k v) b = (b <? k) && Z.testbit v b.
Proof.
  intros Hk Hb. unfold low. destruct (Z.ltb_spec b k).
  - rewrite Z.mod_pow2_bits_low by lia. reflexivity.
  - rewrite Z.mod_pow2_bits_high by lia. reflexivity.
Qed.

Lemma low_id k v : 0 <= v < 2 ^ k -> low k v = v.
Proof. intros. unfold low. apply Z.mod_small; lia. Qed.

Lemma low_low k j v : 0 <= k <= j -> low k (low j v) = low k v.
Proof.
  intros. apply Z.bits_inj'. intros b Hb. rewrite !low_bits by lia.
  destruct (Z.ltb_spec b k); destruct (Z.ltb_spec b j); try lia; reflexivity.
Qed.

Lemma low_eq_bits k u v : 0 <= k ->
  (forall b, 0 <= b < k -> Z.testbit u b = Z.testbit v b) -> low k u = low k v.
Proof.
  intros Hk H. apply Z.bits_inj'. intros b Hb. rewrite !low_bits by lia.
  destruct (Z.ltb_spec b k); [rewrite H by lia|]; reflexivity.
Qed.

Lemma eq_low_bits k u v b : low k u = low k v -> 0 <= b < k ->
  Z.testbit u b = Z.testbit v b.
Proof.
  intros H Hb. apply (f_equal (fun z => Z.testbit z b)) in H.
  rewrite !low_bits in H by lia. destruct (Z.ltb_spec b k); [exact H|lia].
Qed.

Lemma bits_above v k b : 0 <= v < 2 ^ k -> k <= b -> Z.testbit v b = false.
Proof.
  intros Hv Hb. assert (0 <= k). { destruct (Z.le_gt_cases 0 k); auto. rewrite Z.pow_neg_r in Hv by lia. lia. }
  rewrite <- (low_id k v Hv). rewrite low_bits by lia.
  destruct (Z.ltb_spec b k); [lia|reflexivity].
Qed.

Lemma range_of_bits v k : 0 <= k -> 0 <= v ->
  (forall b, k <= b -> Z.testbit v b = false) -> v < 2 ^ k.
Proof.
  intros Hk Hv H. assert (low k v = v) as E.
  { apply Z.bits_inj'. intros b Hb. rewrite low_bits by lia.
    destruct (Z.ltb_spec b k); [reflexivity|]. cbn. symmetry. apply H; lia. }
  rewrite <- E. apply low_range; lia.
Qed.

Lemma sext_range k w v : 0 < k <= w -> 0 <= sext k w v < 2 ^ w.
Proof.
  intros H. unfold sext. pose proof (low_range k v ltac:(lia)).
  assert (2 ^ k <= 2 ^ w) by (apply Z.pow_le_mono_r; lia).
  destruct (Z.testbit v (k - 1)); lia.
Qed.

Lemma sext_low k w v : 0 < k <= w -> low k (sext k w v) = low k v.
Proof.
  intros H. unfold sext. destruct (Z.testbit v (k-1)).
  - unfold low. replace (2 ^ w) with (2 ^ (w - k) * 2 ^ k).
    2:{ rewrite <- Z.pow_add_r by lia. f_equal. lia. }
    replace (v mod 2 ^ k + (2 ^ (w - k) * 2 ^ k - 2 ^ k))
      with (v mod 2 ^ k + (2 ^ (w - k) - 1) * 2 ^ k) by ring.
    rewrite Z.mod_add by (apply Z.pow_nonzero; lia).
    apply Z.mod_mod. apply Z.pow_nonzero; lia.
  - rewrite Z.add_0_r. apply low_low; lia.
Qed.

Lemma sext_eq k w u v : 0 < k <= w -> low k u = low k v -> sext k w u = sext k w v.
Proof.
  intros H E. unfold sext. rewrite E. rewrite (eq_low_bits k u v) by (auto; lia). reflexivity.
Qed.

Lemma sext_inj k w u v : 0 < k <= w -> sext k w u = sext k w v -> low k u = low k v.
Proof. intros H E. rewrite <- (sext_low k w u), <- (sext_low k w v) by lia. now rewrite E. Qed.

Lemma concat_bits k lo hi b : 0 <= k -> 0 <= lo < 2 ^ k -> 0 <= b ->
  Z.testbit (lo + hi * 2 ^ k) b = if b <? k then Z.testbit lo b else Z.testbit hi (b - k).
Proof.
  intros Hk Hl Hb. rewrite <- Z.shiftl_mul_pow2 by lia.
  rewrite Z.add_nocarry_lxor.
  2:{ apply Z.bits_inj'. intros c Hc. rewrite Z.land_spec, Z.bits_0.
      destruct (Z.lt_ge_cases c k).
      - rewrite Z.shiftl_spec_low by lia. apply andb_false_r.
      - rewrite (bits_above _ k) by lia. reflexivity. }
  rewrite Z.lxor_spec. destruct (Z.ltb_spec b k).
  - rewrite Z.shiftl_spec_low by lia. apply xorb_false_r.
  - rewrite (bits_above lo k) by lia. rewrite xorb_false_l. apply Z.shiftl_spec. lia.
Qed.

Lemma ones_bits k b : 0 <= k -> 0 <= b -> Z.testbit (2 ^ k - 1) b = (b <? k).
Proof.
  intros. replace (2 ^ k - 1) with (Z.ones k) by (rewrite Z.ones_equiv; lia).
  destruct (Z.ltb_spec b k).
  - apply Z.ones_spec_low; lia.
  - apply Z.ones_spec_high; lia.
Qed.

Lemma sext_bits k w v b : 0 < k <= w -> 0 <= b ->
  Z.testbit (sext k w v) b =
  if b <? k then Z.testbit v b else (b <? w) && Z.testbit v (k - 1).
Proof.
  intros H Hb. unfold sext. pose proof (low_range k v ltac:(lia)) as R.
  destruct (Z.testbit v (k-1)) eqn:T.
  - replace (2 ^ w - 2 ^ k) with ((2 ^ (w - k) - 1) * 2 ^ k).
    2:{ rewrite Z.mul_sub_distr_r, <- Z.pow_add_r by lia. replace (w - k + k) with w by lia. lia. }
    rewrite concat_bits by lia. destruct (Z.ltb_spec b k).
    + rewrite low_bits by lia. destruct (Z.ltb_spec b k); [reflexivity|lia].
    + rewrite ones_bits by lia. rewrite andb_true_r.
      destruct (Z.ltb_spec (b - k) (w - k)); destruct (Z.ltb_spec b w); try reflexivity; lia.
  - rewrite Z.add_0_r, low_bits, andb_false_r by lia.
    destruct (Z.ltb_spec b k); reflexivity.
Qed.

Lemma byteof_bits v i b : 0 <= i -> 0 <= b ->
  Z.testbit (byteof v i) b = (b <? 8) && Z.testbit v (8 * i + b).
Proof.
  intros Hi Hb. unfold byteof. change 256 with (2 ^ 8). fold (low 8 (Z.shiftr v (8 * i))).
  rewrite low_bits by lia. f_equal. rewrite Z.shiftr_spec by lia. f_equal. lia.
Qed.

Lemma byteof_range v i : 0 <= byteof v i < 256.
Proof. unfold byteof. apply Z.mod_pos_bound. lia. Qed.

Lemma shl_low_bits w v s b : 0 <= w -> 0 <= s -> 0 <= b ->
  Z.testbit (low w (Z.shiftl v s)) b = (b <? w) && (s <=? b) && Z.testbit v (b - s).
Proof.
  intros. rewrite low_bits by lia. rewrite <- andb_assoc. f_equal.
  rewrite Z.shiftl_spec by lia. destruct (Z.leb_spec s b); [reflexivity|].
  rewrite Z.testbit_neg_r by lia. reflexivity.
Qed.
