From Verif Require Export Utils.

Lemma triple_eq {A B C} (a a' : A) (b b' : B) (c c' : C) :
  (a, b, c) = (a', b', c') -> a = a' /\ b = b' /\ c = c'.
Proof. intros H. inversion H. auto. Qed.

Lemma land_low k v : 0 <= k -> Z.land v (2 ^ k - 1) = low k v.
Proof.
  intros. apply Z.bits_inj'. intros b Hb. rewrite Z.land_spec, low_bits, ones_bits by lia. apply andb_comm.
Qed.

Lemma align_land uw ptr : 2 <= uw -> 0 <= ptr < 2 ^ uw ->
  Z.land ptr (2 ^ uw - 1 - 3) = ptr - ptr mod 4.
Proof.
  intros Hu Hp.
  assert (2 ^ uw = 2 ^ (uw - 2) * 4) as E.
  { change 4 with (2 ^ 2). rewrite <- Z.pow_add_r by lia. f_equal; lia. }
  replace (2 ^ uw - 1 - 3) with (Z.shiftl (2 ^ (uw - 2) - 1) 2).
  2:{ rewrite Z.shiftl_mul_pow2 by lia. change (2 ^ 2) with 4. lia. }
  replace (ptr - ptr mod 4) with (Z.shiftl (Z.shiftr ptr 2) 2).
  2:{ rewrite Z.shiftl_mul_pow2, Z.shiftr_div_pow2 by lia. change (2 ^ 2) with 4.
      pose proof (Z.div_mod ptr 4 ltac:(lia)). lia. }
  apply Z.bits_inj'. intros b Hb. rewrite Z.land_spec.
  destruct (Z.lt_ge_cases b 2).
  - rewrite !Z.shiftl_spec_low by lia. apply andb_false_r.
  - rewrite !Z.shiftl_spec, ones_bits, Z.shiftr_spec by lia. replace (b - 2 + 2) with b by lia.
    destruct (Z.ltb_spec (b - 2) (uw - 2)); [apply andb_true_r|].
    rewrite (bits_above ptr uw) by lia. reflexivity.
Qed.

Lemma with_addr_ok uw ptr addr : 0 <= uw -> 0 <= addr < 2 ^ uw -> with_addr uw ptr addr = addr.
Proof.
  intros Hu Ha. unfold with_addr. rewrite Z.add_mod_idemp_r by (apply Z.pow_nonzero; lia).
  replace (ptr + (addr - ptr)) with addr by lia. apply Z.mod_small. exact Ha.
Qed.

Lemma pow2_split a b : 0 <= b <= a -> 2 ^ a = 2 ^ (a - b) * 2 ^ b.
Proof. intros. rewrite <- Z.pow_add_r by lia. f_equal; lia. Qed.

Lemma mod_mod_pow v a b : 0 <= b <= a -> (v mod 2 ^ a) mod 2 ^ b = v mod 2 ^ b.
Proof. intros. apply (low_low b a v). lia. Qed.

(* xor with 3 (byte) or 2 (aligned halfword) inside the low two bits *)
Lemma lxor_low2 p c : 0 <= c < 4 -> Z.lxor p c mod 4 = Z.lxor (p mod 4) c.
Proof.
  intros Hc. change 4 with (2 ^ 2). fold (low 2 (Z.lxor p c)). fold (low 2 p).
  apply Z.bits_inj'. intros b Hb. rewrite low_bits, !Z.lxor_spec, low_bits by lia.
  destruct (Z.ltb_spec b 2); [reflexivity|]. rewrite (bits_above c 2) by (change (2^2) with 4; lia). reflexivity.
Qed.

(* the cell's position in its word, as a function of the target's byte order *)
Definition field_pos (e : endian) (size ptr : Z) : Z :=
  match e with LE => 8 * (ptr mod 4) | BE => 8 * (4 - size - ptr mod 4) end.

Lemma sub_word_ok t e uw rw size ptr aligned shift mask :
  16 <= uw -> 16 <= rw -> (size = 1 \/ size = 2) -> 0 <= ptr < 2 ^ uw -> ptr mod size = 0 ->
  is_s390x t = false ->
  create_sub_word_mask_values t e uw rw size ptr = (aligned, shift, mask) ->
  aligned = ptr - ptr mod 4 /\ aligned mod 4 = 0 /\ 0 <= aligned < 2 ^ uw /\
  in_word e 4 aligned ptr size (field_pos e size ptr) /\
  shift mod 32 = field_pos e size ptr /\ 0 <= shift < 2 ^ rw /\
  (if SHIFT_MASK t then shift = field_pos e size ptr /\
     (32 <= rw -> mask = Z.shiftl (2 ^ (8 * size) - 1) (field_pos e size ptr))
   else mask = 2 ^ (8 * size) - 1).
Proof.
  intros Hu Hr Hs Hp Ha Ht H. unfold create_sub_word_mask_values in H.
  apply triple_eq in H. destruct H as (E1 & E2 & E3).
  change (4 - 1) with 3 in *.
  pose proof (Z.mod_pos_bound ptr 4 ltac:(lia)) as Hm. pose proof (Z.mod_le ptr 4 ltac:(lia) ltac:(lia)) as Hm2.
  assert (aligned = ptr - ptr mod 4) as Al.
  { rewrite <- E1. rewrite align_land by lia. apply with_addr_ok; lia. }
  assert (aligned mod 4 = 0) as Al4.
  { rewrite Al. pose proof (Z.div_mod ptr 4 ltac:(lia)).
    replace (ptr - ptr mod 4) with (ptr / 4 * 4) by lia. apply Z.mod_mul. lia. }
  assert (ptr mod 4 = 0 \/ ptr mod 4 = 2 \/ (size = 1 /\ (ptr mod 4 = 1 \/ ptr mod 4 = 3))) as Cases.
  { destruct Hs as [->| ->]; [lia|].
    assert (ptr mod 4 mod 2 = 0) as M. { pose proof (mod_mod_pow ptr 2 1 ltac:(lia)) as M. change (2 ^ 2) with 4 in M. change (2 ^ 1) with 2 in M. rewrite M. exact Ha. }
    assert (ptr mod 4 = 0 \/ ptr mod 4 = 1 \/ ptr mod 4 = 2 \/ ptr mod 4 = 3) as [C|[C|[C|C]]] by lia;
      rewrite C in *; try lia; cbn in M; lia. }
  assert (0 <= field_pos e size ptr < 32) as Fr. { destruct e; cbn [field_pos]; lia. }
  assert (2 ^ 16 <= 2 ^ uw) by (apply Z.pow_le_mono_r; lia).
  assert (2 ^ 16 <= 2 ^ rw) by (apply Z.pow_le_mono_r; lia).
  change (2 ^ 16) with 65536 in *.
  assert (forall q, (8 * q) mod 32 = 8 * (q mod 4)) as M8.
  { intros q. change 32 with (8 * 4). rewrite Z.mul_mod_distr_l by lia. reflexivity. }
  assert (forall x, ((x mod 2 ^ uw) mod 2 ^ rw) mod 32 = x mod 32) as MM.
  { intros x. change 32 with (2 ^ 5). rewrite !mod_mod_pow by lia. reflexivity. }
  set (sh0 := if (match e with LE => true | BE => false end) || is_s390x t
    then ((if SHIFT_MASK t then Z.land ptr 3 else ptr) * 8) mod 2 ^ uw
    else (Z.lxor (if SHIFT_MASK t then Z.land ptr 3 else ptr) (4 - size) * 8) mod 2 ^ uw) in *.
  assert (Z.land ptr 3 = ptr mod 4) as L3 by (change 3 with (2 ^ 2 - 1); rewrite land_low by lia; reflexivity).
  assert (sh0 mod 2 ^ rw mod 32 = field_pos e size ptr) as Sh.
  { subst sh0. rewrite Ht, orb_false_r. destruct e; cbn [field_pos].
    - rewrite MM, Z.mul_comm, M8. destruct (SHIFT_MASK t); rewrite ?L3, ?Z.mod_mod by lia; reflexivity.
    - rewrite MM, Z.mul_comm, M8. rewrite lxor_low2 by lia.
      assert ((if SHIFT_MASK t then Z.land ptr 3 else ptr) mod 4 = ptr mod 4) as ->
        by (destruct (SHIFT_MASK t); rewrite ?L3, ?Z.mod_mod by lia; reflexivity).
      destruct Cases as [C|[C|[Es [C|C]]]]; rewrite C; destruct Hs as [Hs|Hs]; try (exfalso; lia); rewrite Hs; try reflexivity; lia. }
  split; [exact Al|]. split; [exact Al4|]. split; [lia|]. split.
  { unfold in_word. destruct e; cbn [field_pos]; lia. }
  rewrite <- E2. split; [exact Sh|]. split; [apply Z.mod_pos_bound; lia|].
  destruct (SHIFT_MASK t) eqn:SM; [|rewrite <- E3; f_equal; f_equal; lia].
  assert (0 <= sh0 < 32) as Sr.
  { subst sh0. rewrite L3, Ht, orb_false_r. destruct e.
    - rewrite Z.mod_small by lia. lia.
    - assert (0 <= Z.lxor (ptr mod 4) (4 - size) < 4).
      { destruct Cases as [C|[C|[Es [C|C]]]]; rewrite C; destruct Hs as [Hs|Hs]; try (exfalso; lia); rewrite Hs; cbn; lia. }
      rewrite Z.mod_small by lia. lia. }
  rewrite (Z.mod_small sh0 (2 ^ rw)) in * by lia. rewrite (Z.mod_small sh0 32) in Sh by lia.
  split; [exact Sh|]. intros Hr32. rewrite <- E3, Sh.
  replace (size * 8) with (8 * size) by lia. apply Z.mod_small.
  rewrite Z.shiftl_mul_pow2 by lia.
  assert (2 ^ 32 <= 2 ^ rw) by (apply Z.pow_le_mono_r; lia).
  assert (0 < 2 ^ field_pos e size ptr) by (apply Z.pow_pos_nonneg; lia).
  assert (0 < 2 ^ (8 * size)) by (apply Z.pow_pos_nonneg; lia).
  split; [nia|].
  assert (2 ^ (8 * size) * 2 ^ field_pos e size ptr <= 2 ^ 32).
  { rewrite <- Z.pow_add_r by lia. apply Z.pow_le_mono_r; [lia|]. destruct e; cbn [field_pos]; lia. }
  nia.
Qed.

(* s390x: rotating the word left by [shift] brings the cell's most significant bit to bit 31 *)
Lemma sub_word_ok_s390x uw rw size ptr aligned shift mask :
  32 <= uw -> 32 <= rw -> (size = 1 \/ size = 2) -> 0 <= ptr < 2 ^ uw -> ptr mod size = 0 ->
  create_sub_word_mask_values A_s390x BE uw rw size ptr = (aligned, shift, mask) ->
  aligned = ptr - ptr mod 4 /\ aligned mod 4 = 0 /\ 0 <= aligned < 2 ^ uw /\
  in_word BE 4 aligned ptr size (field_pos BE size ptr) /\
  shift mod 32 = 8 * (ptr mod 4) /\ 0 <= shift < 2 ^ rw.
Proof.
  intros Hu Hr Hs Hp Ha H. unfold create_sub_word_mask_values in H. cbn [SHIFT_MASK is_s390x orb negb] in H.
  apply triple_eq in H. destruct H as (E1 & E2 & E3). change (4 - 1) with 3 in *.
  pose proof (Z.mod_pos_bound ptr 4 ltac:(lia)) as Hm. pose proof (Z.mod_le ptr 4 ltac:(lia) ltac:(lia)) as Hm2.
  assert (aligned = ptr - ptr mod 4) as Al.
  { rewrite <- E1. rewrite align_land by lia. apply with_addr_ok; lia. }
  assert (aligned mod 4 = 0) as Al4.
  { rewrite Al. pose proof (Z.div_mod ptr 4 ltac:(lia)).
    replace (ptr - ptr mod 4) with (ptr / 4 * 4) by lia. apply Z.mod_mul. lia. }
  split; [exact Al|]. split; [exact Al4|]. split; [lia|]. split.
  { unfold in_word. cbn [field_pos].
    assert (ptr mod 4 + size <= 4); [|lia].
    destruct Hs as [->| ->]; [lia|].
    assert (ptr mod 4 mod 2 = 0) as M. { pose proof (mod_mod_pow ptr 2 1 ltac:(lia)) as M. change (2 ^ 2) with 4 in M. change (2 ^ 1) with 2 in M. rewrite M. exact Ha. }
    destruct (Z.eq_dec (ptr mod 4) 3) as [C|C]; [rewrite C in M; cbn in M; lia|lia]. }
  rewrite <- E2. split.
  - change 32 with (2 ^ 5). rewrite !mod_mod_pow by lia. change (2 ^ 5) with (8 * 4).
    rewrite Z.mul_comm. rewrite Z.mul_mod_distr_l by lia. reflexivity.
  - apply Z.mod_pos_bound. apply Z.pow_pos_nonneg; lia.
Qed.

(* ---- register pairs ---- *)
Lemma pair_join_split t e k v : 0 <= k -> pair_join t e k (pair_lo t e k v) (pair_hi t e k v) = v.
Proof.
  intros Hk. unfold pair_join, pair_lo, pair_hi.
  assert (low k v + Z.shiftr v k * 2 ^ k = v) as E.
  { unfold low. rewrite Z.shiftr_div_pow2 by lia. pose proof (Z.div_mod v (2 ^ k)). assert (0 < 2 ^ k) by (apply Z.pow_pos_nonneg; lia). lia. }
  destruct (hi_first_sig t e); exact E.
Qed.
Lemma split_join k lo hi : 0 <= k -> 0 <= lo < 2 ^ k -> low k (lo + hi * 2 ^ k) = lo /\ Z.shiftr (lo + hi * 2 ^ k) k = hi.
Proof.
  intros Hk Hl. unfold low. rewrite Z.shiftr_div_pow2 by lia. split.
  - rewrite Z.mod_add by lia. apply Z.mod_small; auto.
  - rewrite Z.div_add by lia. rewrite Z.div_small by auto. lia.
Qed.
Lemma join_low_shiftr k v : 0 <= k -> low k v + Z.shiftr v k * 2 ^ k = v.
Proof. intros. apply (pair_join_split A_riscv64 LE k v); auto. Qed.
