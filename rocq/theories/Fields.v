(* Bit-field lemmas for sub-word operations. *)
From Verif Require Export Mem UtilsProofs ArchCommon.

Definition fmask (s n b : Z) : bool := (s <=? b) && (b <? s + 8 * n).

Lemma fmask_spec s n b : fmask s n b = true <-> s <= b < s + 8 * n.
Proof. unfold fmask. rewrite andb_true_iff, Z.leb_le, Z.ltb_lt. tauto. Qed.

(* ((V ^ O) & M) ^ O *)
Lemma merge_xor_field W O V M s n v wn :
  (forall b, 0 <= b < 8 * wn -> Z.testbit O b = Z.testbit W b) ->
  (forall b, 0 <= b < 8 * wn -> Z.testbit M b = fmask s n b) ->
  (forall b, 0 <= b < 8 * wn -> fmask s n b = true -> Z.testbit V b = Z.testbit v (b - s)) ->
  field_set (Z.lxor (Z.land (Z.lxor V O) M) O) W s n v wn.
Proof.
  intros HO HM HV b Hb. rewrite Z.lxor_spec, Z.land_spec, Z.lxor_spec.
  rewrite HM by lia. fold (fmask s n b). destruct (fmask s n b) eqn:E.
  - rewrite andb_true_r, xorb_assoc, xorb_nilpotent, xorb_false_r. apply HV; auto.
  - rewrite andb_false_r, xorb_false_l. apply HO; auto.
Qed.

(* ((O ^ V) & M) ^ O *)
Lemma merge_xor_field' W O V M s n v wn :
  (forall b, 0 <= b < 8 * wn -> Z.testbit O b = Z.testbit W b) ->
  (forall b, 0 <= b < 8 * wn -> Z.testbit M b = fmask s n b) ->
  (forall b, 0 <= b < 8 * wn -> fmask s n b = true -> Z.testbit V b = Z.testbit v (b - s)) ->
  field_set (Z.lxor (Z.land (Z.lxor O V) M) O) W s n v wn.
Proof. intros. rewrite (Z.lxor_comm O V). apply merge_xor_field; auto. Qed.

(* (O & !M) | V *)
Lemma merge_or_field W O V M s n v wn :
  (forall b, 0 <= b < 8 * wn -> Z.testbit O b = Z.testbit W b) ->
  (forall b, 0 <= b < 8 * wn -> Z.testbit M b = fmask s n b) ->
  (forall b, 0 <= b < 8 * wn -> Z.testbit V b = fmask s n b && Z.testbit v (b - s)) ->
  field_set (Z.lor (Z.ldiff O M) V) W s n v wn.
Proof.
  intros HO HM HV b Hb. rewrite Z.lor_spec, Z.ldiff_spec.
  rewrite HM, HV by lia. fold (fmask s n b). destruct (fmask s n b) eqn:E; cbn [negb andb].
  - rewrite andb_false_r. reflexivity.
  - rewrite andb_true_r, orb_false_r. apply HO; auto.
Qed.

(* comparing the masked word with the shifted expected value compares the field *)
Lemma field_cmp W X Vo old s n wn :
  0 <= s -> s + 8 * n <= 8 * wn -> 0 <= n -> 0 <= old < 2 ^ (8 * n) ->
  (forall b, 0 <= b < 8 * wn -> Z.testbit X b = Z.testbit W b && fmask s n b) ->
  (forall b, 0 <= b < 8 * wn -> Z.testbit Vo b = fmask s n b && Z.testbit old (b - s)) ->
  (low (8 * wn) X = low (8 * wn) Vo <-> low (8 * n) (Z.shiftr W s) = old).
Proof.
  intros Hs Hsn Hn Ho HX HV. split; intros E.
  - rewrite <- (low_id (8*n) old) by auto. apply low_eq_bits; [lia|]. intros b Hb.
    rewrite Z.shiftr_spec by lia.
    pose proof (eq_low_bits _ _ _ (b + s) E ltac:(lia)) as Eb.
    rewrite HX, HV in Eb by lia.
    assert (fmask s n (b + s) = true) as Fm by (apply fmask_spec; lia).
    rewrite Fm, andb_true_r in Eb. cbn [andb] in Eb. rewrite Eb. f_equal. lia.
  - apply low_eq_bits; [lia|]. intros b Hb. rewrite HX, HV by lia.
    destruct (fmask s n b) eqn:Fm; [|now rewrite andb_false_r].
    rewrite andb_true_r. cbn [andb]. apply fmask_spec in Fm. rewrite <- E.
    rewrite low_bits, Z.shiftr_spec by lia. destruct (Z.ltb_spec (b - s) (8*n)); [|lia]. cbn [andb].
    f_equal. lia.
Qed.

(* values that are sign extensions of their low k bits are determined by those bits *)
Lemma sext_canon_eq k w x y : 0 < k <= w -> sext k w x = x -> sext k w y = y ->
  (x = y <-> low k x = low k y).
Proof.
  intros Hk Hx Hy. split; [intros ->; reflexivity|]. intros E.
  rewrite <- Hx, <- Hy. apply sext_eq; auto.
Qed.

Lemma sext_idem k w x : 0 < k <= w -> sext k w (sext k w x) = sext k w x.
Proof. intros H. apply sext_eq; auto. apply sext_low; auto. Qed.

Lemma sext_land k w x y : 0 < k <= w -> Z.land (sext k w x) (sext k w y) = sext k w (Z.land x y).
Proof.
  intros H. apply Z.bits_inj'. intros b Hb. rewrite Z.land_spec, !sext_bits, !Z.land_spec by lia.
  destruct (b <? k); [reflexivity|]. destruct (b <? w); reflexivity.
Qed.

(* bits of a shifted mask / shifted value in a 32-bit word *)
Lemma shl_mask_bits s n b : 0 <= s -> 0 <= n -> 0 <= b ->
  Z.testbit (Z.shiftl (2 ^ (8 * n) - 1) s) b = fmask s n b.
Proof.
  intros. rewrite Z.shiftl_spec by lia. unfold fmask. destruct (Z.leb_spec s b); cbn [andb].
  - rewrite ones_bits by lia. destruct (Z.ltb_spec (b - s) (8*n)); destruct (Z.ltb_spec b (s + 8*n)); auto; lia.
  - apply Z.testbit_neg_r; lia.
Qed.

Lemma shl_val_bits v x k s n b : 0 <= s -> 0 <= n -> 0 <= b < k -> low k x = v -> 0 <= v < 2 ^ (8 * n) ->
  Z.testbit (Z.shiftl x s) b = fmask s n b && Z.testbit v (b - s).
Proof.
  intros Hs Hn Hb Hx Hv. rewrite Z.shiftl_spec by lia. unfold fmask.
  destruct (Z.leb_spec s b); cbn [andb].
  - replace (Z.testbit x (b - s)) with (Z.testbit v (b - s)).
    2:{ subst v. rewrite low_bits by lia. destruct (Z.ltb_spec (b - s) k); [reflexivity|lia]. }
    destruct (Z.ltb_spec b (s + 8*n)); cbn [andb]; [reflexivity|].
    apply (bits_above v (8*n)); auto; lia.
  - apply Z.testbit_neg_r; lia.
Qed.

(* shifted values and masks with the sign-extending 32-bit shifts of ArchCommon.v *)
Lemma sx_srl_field w W sh n : 32 <= w -> 0 <= W < 2 ^ 32 -> 0 <= 8 * n <= 32 ->
  low (8 * n) (sx_srl w (sext 32 w W) sh) = low (8 * n) (Z.shiftr W (sh mod 32)).
Proof.
  intros Hw HW Hn. unfold sx_srl. rewrite sext_low by lia. rewrite (low_id 32 W) by auto.
  rewrite <- (low_low (8*n) 32) by lia. rewrite sext_low by lia. apply low_low; lia.
Qed.

Lemma sx_sll_bits w x sh b : 32 <= w -> 0 <= b < 32 ->
  Z.testbit (sx_sll w x sh) b = Z.testbit (Z.shiftl x (sh mod 32)) b.
Proof. intros. unfold sx_sll. rewrite sext_bits by lia. destruct (Z.ltb_spec b 32); [reflexivity|lia]. Qed.

Lemma sx_sub_cmp w W mask shift O old s n :
  32 <= w -> 0 <= W < 2 ^ 32 -> mask = 2 ^ (8 * n) - 1 -> shift mod 32 = s -> 0 <= s -> s + 8 * n <= 8 * 4 -> 0 < n ->
  low 32 O = old -> 0 <= old < 2 ^ (8 * n) ->
  (Z.land (sext 32 w W) (sx_sll w mask shift) = sx_sll w O shift <-> low (8 * n) (Z.shiftr W s) = old).
Proof.
  intros Hw HW Hm Hs Hs0 Hsn Hn HO Hold.
  unfold sx_sll. rewrite sext_land by lia.
  rewrite sext_canon_eq with (k := 32) (w := w); try lia; try (apply sext_idem; lia).
  rewrite !sext_low by lia. subst mask. rewrite Hs.
  change 32 with (8 * 4). apply field_cmp; try lia.
  - intros b Hb. rewrite Z.land_spec, shl_mask_bits by lia. reflexivity.
  - intros b Hb. apply (shl_val_bits old O 32 s n); auto; lia.
Qed.


Lemma rd_field_eq e wn wa pa n s m m' : in_word e wn wa pa n s -> wf_mem m -> wf_mem m' ->
  rd e m wa wn = rd e m' wa wn -> rd e m pa n = rd e m' pa n.
Proof. intros H Hm Hm' E. rewrite <- !(rd_field e wn wa pa n s) by auto. now rewrite E. Qed.

(* comparing a sign-extended loaded value with a sign-extended operand *)
Lemma sx_cmp w n x V old : 0 < n -> 8 * n <= w -> sext (8 * n) w x = x -> low (8 * n) x = old -> 0 <= V < 2 ^ (8 * n) ->
  (sext (8 * n) w V = x <-> V = old).
Proof.
  intros Hn Hw Hx Ho HV. rewrite sext_canon_eq with (k := 8 * n) (w := w); try lia; auto.
  - rewrite sext_low by lia. rewrite low_id by auto. now rewrite Ho.
  - apply sext_idem; lia.
Qed.
Lemma sext_full k x : 0 < k -> 0 <= x < 2 ^ k -> sext k k x = x.
Proof.
  intros Hk Hx. rewrite <- (low_id k x) at 2 by auto. rewrite <- (low_id k (sext k k x)) by (apply sext_range; lia).
  apply sext_low. lia.
Qed.
