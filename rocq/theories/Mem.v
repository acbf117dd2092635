(* L0: byte-addressed memory with both endiannesses. *)
From Verif Require Export Bits.

Definition mem := Z -> Z.
Definition wf_mem (m : mem) : Prop := forall a, 0 <= m a < 256.
(* pointwise equality of memories *)
Definition meq (m m' : mem) : Prop := forall a, m a = m' a.

Inductive endian := LE | BE.

(* offset, inside an [n]-byte object, of the byte of significance [i] *)
Definition boff (e : endian) (n i : Z) : Z :=
  match e with LE => i | BE => n - 1 - i end.

Fixpoint rdk (m : mem) (e : endian) (a n : Z) (k : nat) : Z :=
  match k with
  | O => 0
  | S j => rdk m e a n j + m (a + boff e n (Z.of_nat j)) * 2 ^ (8 * Z.of_nat j)
  end.

(* the [n]-byte integer at address [a] *)
Definition rd (e : endian) (m : mem) (a n : Z) : Z := rdk m e a n (Z.to_nat n).

(* [m] with the [n] bytes at [a] replaced by the low [n] bytes of [v] *)
Definition wr (e : endian) (m : mem) (a n v : Z) : mem :=
  fun x => if (a <=? x) && (x <? a + n) then byteof v (boff e n (x - a)) else m x.

(* ---------------------------------------------------------------- lemmas *)
Lemma meq_refl m : meq m m.
Proof. intro; reflexivity. Qed.
Lemma meq_sym m m' : meq m m' -> meq m' m.
Proof. intros H a; symmetry; apply H. Qed.
Lemma meq_trans m1 m2 m3 : meq m1 m2 -> meq m2 m3 -> meq m1 m3.
Proof. intros H1 H2 a; rewrite H1; apply H2. Qed.

Lemma boff_invol e n i : boff e n (boff e n i) = i.
Proof. destruct e; cbn; lia. Qed.

Lemma rdk_range m e a n k : wf_mem m -> 0 <= rdk m e a n k < 2 ^ (8 * Z.of_nat k).
Proof.
  intros Hm. induction k as [|k IH]. { cbn. lia. }
  cbn [rdk]. replace (8 * Z.of_nat (S k)) with (8 + 8 * Z.of_nat k) by lia.
  rewrite Z.pow_add_r by lia. change (2 ^ 8) with 256.
  pose proof (Hm (a + boff e n (Z.of_nat k))).
  assert (0 < 2 ^ (8 * Z.of_nat k)) by (apply Z.pow_pos_nonneg; lia). nia.
Qed.

Lemma rd_range e m a n : wf_mem m -> 0 <= n -> 0 <= rd e m a n < 2 ^ (8 * n).
Proof. intros. unfold rd. pose proof (rdk_range m e a n (Z.to_nat n) H). rewrite Z2Nat.id in H1 by lia. exact H1. Qed.

Lemma rdk_bits m e a n k b : wf_mem m -> 0 <= b < 8 * Z.of_nat k ->
  Z.testbit (rdk m e a n k) b = Z.testbit (m (a + boff e n (b / 8))) (b mod 8).
Proof.
  intros Hm. induction k as [|k IH]; intros Hb. { lia. }
  cbn [rdk]. set (K := Z.of_nat k) in *.
  pose proof (rdk_range m e a n k Hm) as R. fold K in R.
  rewrite concat_bits by lia. destruct (Z.ltb_spec b (8 * K)).
  - apply IH. lia.
  - assert (b / 8 = K) as -> by (symmetry; apply (Z.div_unique_pos b 8 K (b - 8*K)); lia).
    f_equal. apply (Z.mod_unique_pos b 8 K (b - 8*K)); lia.
Qed.

Lemma rd_bits e m a n b : wf_mem m -> 0 <= n -> 0 <= b ->
  Z.testbit (rd e m a n) b = (b <? 8 * n) && Z.testbit (m (a + boff e n (b / 8))) (b mod 8).
Proof.
  intros Hm Hn Hb. destruct (Z.ltb_spec b (8*n)).
  - unfold rd. rewrite rdk_bits by (auto; rewrite ?Z2Nat.id by lia; lia). reflexivity.
  - rewrite (bits_above _ (8*n)) by (try apply rd_range; auto; lia). reflexivity.
Qed.

Lemma wf_wr e m a n v : wf_mem m -> wf_mem (wr e m a n v).
Proof. intros H x. unfold wr. destruct (_ && _); [apply byteof_range|apply H]. Qed.

Lemma byte_eq_bits x y : 0 <= x < 256 -> 0 <= y < 256 ->
  (forall b, 0 <= b < 8 -> Z.testbit x b = Z.testbit y b) -> x = y.
Proof.
  intros Hx Hy H. change 256 with (2^8) in *.
  rewrite <- (low_id 8 x), <- (low_id 8 y) by lia. apply low_eq_bits; [lia|exact H].
Qed.

(* reading back what was written *)
Lemma rd_wr_same e m a n v : wf_mem m -> 0 <= n -> rd e (wr e m a n v) a n = low (8 * n) v.
Proof.
  intros Hm Hn. apply Z.bits_inj'. intros b Hb.
  rewrite rd_bits, low_bits by (auto using wf_wr; lia).
  destruct (Z.ltb_spec b (8*n)); [|reflexivity]. cbn [andb].
  assert (0 <= b / 8 < n) by (split; [apply Z.div_pos; lia|apply Z.div_lt_upper_bound; lia]).
  unfold wr. replace (_ && _) with true.
  2:{ symmetry. apply andb_true_iff. split; [apply Z.leb_le|apply Z.ltb_lt]; destruct e; cbn [boff]; lia. }
  replace (a + boff e n (b/8) - a) with (boff e n (b/8)) by lia. rewrite boff_invol.
  pose proof (Z.mod_pos_bound b 8 ltac:(lia)).
  rewrite byteof_bits by lia. destruct (Z.ltb_spec (b mod 8) 8); [|lia]. cbn [andb].
  f_equal. pose proof (Z.div_mod b 8 ltac:(lia)). lia.
Qed.

(* byte-wise equality of two memories over the cell is equality of the integers read *)
Lemma rd_inj e m m' a n : wf_mem m -> wf_mem m' -> 0 <= n -> rd e m a n = rd e m' a n ->
  forall i, 0 <= i < n -> m (a + i) = m' (a + i).
Proof.
  intros Hm Hm' Hn H i Hi. apply byte_eq_bits; auto. intros b Hb.
  assert (0 <= boff e n i < n) by (destruct e; cbn; lia).
  apply (f_equal (fun z => Z.testbit z (8 * boff e n i + b))) in H.
  rewrite !rd_bits in H by (auto; lia).
  destruct (Z.ltb_spec (8 * boff e n i + b) (8*n)); [|lia]. cbn [andb] in H.
  replace ((8 * boff e n i + b) / 8) with (boff e n i) in H by (apply (Z.div_unique_pos _ 8 _ b); lia).
  replace ((8 * boff e n i + b) mod 8) with b in H by (apply (Z.mod_unique_pos _ 8 (boff e n i) b); lia).
  rewrite boff_invol in H. exact H.
Qed.

Lemma rd_ext e m m' a n : (forall i, 0 <= i < n -> m (a + i) = m' (a + i)) -> rd e m a n = rd e m' a n.
Proof.
  unfold rd. intros H.
  assert (forall k, (k <= Z.to_nat n)%nat -> rdk m e a n k = rdk m' e a n k) as E.
  { induction k as [|k IH]; intros Hk; [reflexivity|]. cbn [rdk]. rewrite IH by lia.
    rewrite H; [reflexivity|]. destruct e; cbn; lia. }
  apply E. lia.
Qed.

Lemma rd_meq e m m' a n : meq m m' -> rd e m a n = rd e m' a n.
Proof. intros H. apply rd_ext. intros; apply H. Qed.

(* writing back the value that is already there changes nothing *)
Lemma wr_rd_same e m a n v : wf_mem m -> 0 <= n -> low (8*n) v = rd e m a n -> meq (wr e m a n v) m.
Proof.
  intros Hm Hn Hv x. unfold wr. destruct (Z.leb_spec a x); cbn [andb]; [|reflexivity].
  destruct (Z.ltb_spec x (a + n)); [|reflexivity].
  apply byte_eq_bits; [apply byteof_range|apply Hm|]. intros b Hb.
  assert (0 <= boff e n (x - a) < n) by (destruct e; cbn; lia).
  rewrite byteof_bits by lia. destruct (Z.ltb_spec b 8); [|lia]. cbn [andb].
  assert (Z.testbit v (8 * boff e n (x-a) + b) = Z.testbit (rd e m a n) (8 * boff e n (x-a) + b)) as ->.
  { rewrite <- Hv, low_bits by lia. destruct (Z.ltb_spec (8 * boff e n (x-a) + b) (8*n)); [reflexivity|lia]. }
  rewrite rd_bits by (auto; lia). destruct (Z.ltb_spec (8 * boff e n (x-a) + b) (8*n)); [|lia]. cbn [andb].
  replace ((8 * boff e n (x-a) + b) / 8) with (boff e n (x-a)) by (apply (Z.div_unique_pos _ 8 _ b); lia).
  replace ((8 * boff e n (x-a) + b) mod 8) with b by (apply (Z.mod_unique_pos _ 8 (boff e n (x-a)) b); lia).
  rewrite boff_invol. do 2 f_equal. lia.
Qed.

Lemma wr_low e m a n v k : 0 <= n -> 8 * n <= k -> meq (wr e m a n (low k v)) (wr e m a n v).
Proof.
  intros Hn Hk x. unfold wr. destruct (Z.leb_spec a x); cbn [andb]; [|reflexivity].
  destruct (Z.ltb_spec x (a + n)); [|reflexivity].
  assert (0 <= boff e n (x - a) < n) by (destruct e; cbn; lia).
  apply byte_eq_bits; try apply byteof_range. intros b Hb.
  rewrite !byteof_bits by lia. destruct (Z.ltb_spec b 8); [|lia]. cbn [andb].
  rewrite low_bits by lia. destruct (Z.ltb_spec (8 * boff e n (x - a) + b) k); [reflexivity|lia].
Qed.

Lemma wr_eq_low e m a n u v : 0 <= n -> low (8*n) u = low (8*n) v -> meq (wr e m a n u) (wr e m a n v).
Proof.
  intros Hn E. eapply meq_trans; [apply meq_sym; apply (wr_low e m a n u (8*n)); lia|].
  rewrite E. apply wr_low; lia.
Qed.

Lemma wr_meq e m m' a n v : meq m m' -> meq (wr e m a n v) (wr e m' a n v).
Proof. intros H x. unfold wr. now rewrite H. Qed.

(* bytes outside the written range are untouched *)
Lemma wr_outside e m a n v x : ~ (a <= x < a + n) -> wr e m a n v x = m x.
Proof.
  intros H. unfold wr. destruct (Z.leb_spec a x); destruct (Z.ltb_spec x (a+n)); cbn; try reflexivity. lia.
Qed.

(* ------------------------------------------------ fields of an aligned word *)
(* [in_word e wn wa pa n s]: the [n]-byte cell at [pa] occupies bits [s, s+8n) of the [wn]-byte word at [wa] *)
Definition in_word (e : endian) (wn wa pa n s : Z) : Prop :=
  0 < n /\ wa <= pa /\ pa + n <= wa + wn /\
  s = match e with LE => 8 * (pa - wa) | BE => 8 * (wn - n - (pa - wa)) end.

Lemma in_word_range e wn wa pa n s : in_word e wn wa pa n s -> 0 <= s /\ s + 8 * n <= 8 * wn /\ 0 < n.
Proof. intros (Hn & H1 & H2 & ->). destruct e; lia. Qed.

Lemma rd_field e wn wa pa n s m : wf_mem m -> in_word e wn wa pa n s ->
  low (8 * n) (Z.shiftr (rd e m wa wn) s) = rd e m pa n.
Proof.
  intros Hm H. pose proof (in_word_range _ _ _ _ _ _ H) as (Hs & Hs2 & Hn0). destruct H as (Hn & H1 & H2 & Es).
  apply Z.bits_inj'. intros b Hb. rewrite low_bits, rd_bits by (auto; lia).
  destruct (Z.ltb_spec b (8*n)); [|reflexivity]. cbn [andb].
  rewrite Z.shiftr_spec by lia. rewrite rd_bits by (auto; lia).
  destruct (Z.ltb_spec (b + s) (8*wn)); [|lia]. cbn [andb].
  assert (exists q, s = 8 * q) as [q Eq].
  { destruct e; [exists (pa - wa)|exists (wn - n - (pa - wa))]; lia. }
  assert ((b + s) / 8 = b / 8 + q) as ->.
  { rewrite Eq. rewrite (Z.mul_comm 8 q). apply Z.div_add; lia. }
  assert ((b + s) mod 8 = b mod 8) as ->.
  { rewrite Eq. rewrite (Z.mul_comm 8 q). apply Z.mod_add; lia. }
  f_equal. f_equal. destruct e; cbn [boff] in *; lia.
Qed.

(* [w'] is [w] with the [8n]-bit field at [s] replaced by [v] *)
Definition field_set (w' w s n v : Z) (wn : Z) : Prop :=
  forall b, 0 <= b < 8 * wn ->
    Z.testbit w' b = if (s <=? b) && (b <? s + 8 * n) then Z.testbit v (b - s) else Z.testbit w b.

Lemma wr_field e wn wa pa n s m w' v : wf_mem m -> in_word e wn wa pa n s ->
  field_set w' (rd e m wa wn) s n v wn ->
  meq (wr e m wa wn w') (wr e m pa n v).
Proof.
  intros Hm H F x. pose proof (in_word_range _ _ _ _ _ _ H) as (Hs & Hs2 & Hn0). destruct H as (Hn & H1 & H2 & Es).
  unfold wr at 1. destruct (Z.leb_spec wa x); cbn [andb].
  2:{ rewrite wr_outside by lia. reflexivity. }
  destruct (Z.ltb_spec x (wa + wn)).
  2:{ rewrite wr_outside by lia. reflexivity. }
  assert (0 <= boff e wn (x - wa) < wn) as B by (destruct e; cbn; lia).
  apply byte_eq_bits; [apply byteof_range|apply wf_wr; auto|]. intros b Hb.
  rewrite byteof_bits by lia. destruct (Z.ltb_spec b 8); [|lia]. cbn [andb].
  rewrite F by lia.
  assert (((s <=? 8 * boff e wn (x - wa) + b) && (8 * boff e wn (x - wa) + b <? s + 8 * n))
          = ((pa <=? x) && (x <? pa + n))) as ->.
  { destruct e; cbn [boff] in *; subst s;
    repeat match goal with |- context [?a <=? ?b] => destruct (Z.leb_spec a b) end;
    repeat match goal with |- context [?a <? ?b] => destruct (Z.ltb_spec a b) end; cbn; try reflexivity; lia. }
  unfold wr. destruct ((pa <=? x) && (x <? pa + n)) eqn:In.
  - apply andb_true_iff in In. destruct In as [I1 I2]. apply Z.leb_le in I1. apply Z.ltb_lt in I2.
    rewrite byteof_bits by (destruct e; cbn; lia). destruct (Z.ltb_spec b 8); [|lia]. cbn [andb].
    f_equal. destruct e; cbn [boff] in *; lia.
  - rewrite rd_bits by (auto; lia).
    destruct (Z.ltb_spec (8 * boff e wn (x - wa) + b) (8*wn)); [|lia]. cbn [andb].
    replace ((8 * boff e wn (x-wa) + b) / 8) with (boff e wn (x-wa)) by (apply (Z.div_unique_pos _ 8 _ b); lia).
    replace ((8 * boff e wn (x-wa) + b) mod 8) with b by (apply (Z.mod_unique_pos _ 8 (boff e wn (x-wa)) b); lia).
    rewrite boff_invol. do 2 f_equal. lia.
Qed.

(* two half-width reads make a double-width read *)
Lemma rd_pair e m a n : wf_mem m -> 0 <= n ->
  rd e m a (2 * n) =
  match e with
  | LE => rd e m a n + rd e m (a + n) n * 2 ^ (8 * n)
  | BE => rd e m (a + n) n + rd e m a n * 2 ^ (8 * n)
  end.
Proof.
  intros Hm Hn.
  apply Z.bits_inj'. intros b Hb.
  pose proof (rd_range e m a n Hm Hn). pose proof (rd_range e m (a+n) n Hm Hn).
  rewrite rd_bits by (auto; lia).
  assert (forall c, 0 <= c -> (c - 8 * n) / 8 = c / 8 - n) as D.
  { intros c Hc. replace (c - 8 * n) with (c + (-n) * 8) by lia. rewrite Z.div_add by lia. lia. }
  assert (forall c, 0 <= c -> (c - 8 * n) mod 8 = c mod 8) as M.
  { intros c Hc. replace (c - 8 * n) with (c + (-n) * 8) by lia. apply Z.mod_add. lia. }
  destruct e; rewrite concat_bits by (auto; lia); destruct (Z.ltb_spec b (8*n)); rewrite rd_bits by (auto; lia);
    cbn [boff]; rewrite ?D, ?M by lia;
    repeat match goal with |- context [?x <? ?y] => destruct (Z.ltb_spec x y) end; try lia;
    cbn [andb]; try reflexivity; do 2 f_equal; lia.
Qed.

(* two half-width writes make a double-width write *)
Lemma wr_pair e m a n x y : 0 <= n ->
  meq (wr e (wr e m a n x) (a + n) n y)
      (wr e m a (2 * n) (match e with
        | LE => low (8 * n) x + y * 2 ^ (8 * n)
        | BE => low (8 * n) y + x * 2 ^ (8 * n) end)).
Proof.
  intros Hn q. unfold wr.
  pose proof (low_range (8 * n) x ltac:(lia)). pose proof (low_range (8 * n) y ltac:(lia)).
  destruct (Z.leb_spec (a + n) q); destruct (Z.ltb_spec q (a + n + n)); destruct (Z.leb_spec a q); destruct (Z.ltb_spec q (a + 2 * n));
    destruct (Z.ltb_spec q (a + n)); cbn [andb]; try lia; try reflexivity;
  (apply byte_eq_bits; try apply byteof_range; intros b Hb; rewrite !byteof_bits by (destruct e; cbn [boff]; lia);
   destruct (Z.ltb_spec b 8); [|lia]; cbn [andb]; destruct e; cbn [boff];
   rewrite concat_bits by (auto; lia);
   match goal with |- context [if ?u <? ?v then _ else _] => destruct (Z.ltb_spec u v) end; try lia;
   rewrite ?low_bits by lia;
   try match goal with |- context [?u <? ?v] => destruct (Z.ltb_spec u v) end; try lia; cbn [andb]; f_equal; lia).
Qed.
