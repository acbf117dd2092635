(* C15, C17: layout of the types, conversions, and the encodings in which values are passed to machine code. *)
From Verif Require Import Layout UtilsProofs.

(* ---- C15 ---- *)
(* size and alignment of AtomicMaybeUninit<T> are the size of T; the value is at offset 0; for every ABI and pointer width *)
Theorem C15_layout al pw t : abi_ok al -> In pw [16; 32; 64; 128] ->
  size (atomic_layout al pw t) = ity_size pw t /\ align (atomic_layout al pw t) = ity_size pw t /\ nth 0 (atomic_offsets al pw t) 0 = 0.
Proof.
  intros A P.
  assert (exists k, In k [0; 1; 2; 3; 4] /\ ity_size pw t = 2 ^ k /\ prim_align al pw t = align_n al (2 ^ k)) as (k & K & E & F).
  { destruct t; cbn; [exists 0|exists 1|exists 2|exists 3|exists 4|]; cbn; auto 10.
    destruct P as [<-|[<-|[<-|[<-|[]]]]]; [exists 1|exists 2|exists 3|exists 4]; cbn; auto 10. }
  destruct (A k K) as (j & J & Aj). unfold atomic_layout, atomic_offsets, atomic_fields, repr_c. rewrite F, E. clear F E.
  unfold align_n, repr_align, int_layout, array. cbn [repr_c_from size align fst snd nth]. rewrite Aj.
  assert (forall i, 0 <= i -> 0 < 2 ^ i) as Pos by (intros; apply Z.pow_pos_nonneg; lia).
  assert (2 ^ j <= 2 ^ k) as L by (apply Z.pow_le_mono_r; lia). pose proof (Pos j ltac:(lia)). pose proof (Pos k ltac:(destruct K as [<-|[<-|[<-|[<-|[<-|[]]]]]]; lia)).
  assert (forall x a, 0 < a -> round_up x a = (x + (a - 1)) / a * a) as RU by (intros; unfold round_up; do 2 f_equal; lia).
  assert (round_up 0 (2 ^ j) = 0) as R0. { rewrite RU by auto. rewrite Z.div_small by lia. lia. }
  rewrite R0. cbn [size align Z.add]. rewrite (Z.max_l (2 ^ k) (2 ^ j)) by lia. rewrite !(Z.max_r 1) by lia.
  assert (round_up (2 ^ k) (2 ^ k) = 2 ^ k) as R1.
  { rewrite RU by auto. replace (2 ^ k + (2 ^ k - 1)) with (2 ^ k - 1 + 1 * 2 ^ k) by lia. rewrite Z.div_add by lia. rewrite Z.div_small by lia. lia. }
  rewrite R1. rewrite Z.mul_0_r, Z.add_0_r, Z.max_r by lia. auto.
Qed.
(* x86: u64 has alignment 4, yet AtomicMaybeUninit<u64> has 8 *)
Definition abi_x86 : abi := fun n => if n <=? 4 then n else if n =? 8 then 4 else 16.
Example abi_x86_ok : abi_ok abi_x86.
Proof. intros k [<-|[<-|[<-|[<-|[<-|[]]]]]]; [exists 0|exists 1|exists 2|exists 2|exists 4]; (split; [lia|reflexivity]). Qed.

(* the bytes put in come out, initialised or not *)
Lemma new_bytes al pw t v : abi_ok al -> In pw [16; 32; 64; 128] -> Z.of_nat (length v) = ity_size pw t -> atomic_new al pw t v = v.
Proof.
  intros A P L. destruct (C15_layout al pw t A P) as (S & _ & O). unfold atomic_new, struct_bytes. rewrite S.
  unfold atomic_offsets, atomic_fields, repr_c in *. cbn [repr_c_from fst] in *.
  cbn [nth combine fold_right] in *. rewrite O.
  cbn [put Z.to_nat]. assert (forall n s, put n [] s = s) as N by (induction n as [|n IH]; intros [|x s]; cbn; auto; now rewrite IH).
  rewrite N. rewrite skipn_all2; [apply app_nil_r|]. rewrite repeat_length. lia.
Qed.
Theorem C15_into_inner al pw t v : abi_ok al -> In pw [16; 32; 64; 128] -> Z.of_nat (length v) = ity_size pw t ->
  into_inner pw t (atomic_new al pw t v) = Some v.
Proof.
  intros A P L. rewrite new_bytes by auto. unfold into_inner, transmute_copy_by_val. rewrite <- L, Nat2Z.id, Nat.leb_refl. now rewrite firstn_all.
Qed.
Lemma fetch_place m p v : fetch (place m p v) p (length v) = v.
Proof.
  unfold fetch. apply nth_ext with (d := None) (d' := None); [now rewrite map_length, seq_length|]. intros n H. rewrite map_length, seq_length in H.
  rewrite (nth_indep _ None (place m p v (p + Z.of_nat 0))) by (rewrite map_length, seq_length; auto).
  rewrite (map_nth (fun i => place m p v (p + Z.of_nat i))). rewrite seq_nth by auto. cbn [Nat.add]. unfold place.
  replace ((p <=? p + Z.of_nat n) && (p + Z.of_nat n <? p + Z.of_nat (length v))) with true.
  - f_equal. lia.
  - symmetry. apply andb_true_iff. split; [apply Z.leb_le|apply Z.ltb_lt]; lia.
Qed.
Theorem C15_as_ptr al pw t v m self : abi_ok al -> In pw [16; 32; 64; 128] -> Z.of_nat (length v) = ity_size pw t ->
  fetch (place m self (atomic_new al pw t v)) (as_ptr al pw t self) (Z.to_nat (ity_size pw t)) = v /\
  fetch (place m self (atomic_new al pw t v)) (get_mut al pw t self) (Z.to_nat (ity_size pw t)) = v.
Proof.
  intros A P L. unfold get_mut, as_ptr. destruct (C15_layout al pw t A P) as (_ & _ & O). rewrite O, Z.add_0_r, new_bytes by auto.
  rewrite <- L, Nat2Z.id. split; apply fetch_place.
Qed.
(* writing through get_mut / as_ptr, then into_inner *)
Theorem C15_write_through al pw t v w m self : abi_ok al -> In pw [16; 32; 64; 128] -> Z.of_nat (length v) = ity_size pw t -> length w = length v ->
  into_inner pw t (fetch (place (place m self (atomic_new al pw t v)) (get_mut al pw t self) w) self (Z.to_nat (size (atomic_layout al pw t)))) = Some w.
Proof.
  intros A P L W. unfold get_mut, as_ptr. destruct (C15_layout al pw t A P) as (S & _ & O). rewrite O, S, Z.add_0_r, <- L, Nat2Z.id, <- W, fetch_place.
  unfold into_inner, transmute_copy_by_val. rewrite <- L, Nat2Z.id, <- W, Nat.leb_refl. now rewrite firstn_all.
Qed.
(* the cell made from the pointer is the cell the pointer was taken from, and the pointer is aligned as from_ptr and the atomic operations
   require *)
Theorem C15_from_ptr al pw t self : abi_ok al -> In pw [16; 32; 64; 128] -> self mod align (atomic_layout al pw t) = 0 ->
  from_ptr (as_ptr al pw t self) = self /\ as_ptr al pw t self mod ity_size pw t = 0.
Proof.
  intros A P H. unfold from_ptr, as_ptr. destruct (C15_layout al pw t A P) as (_ & E & O). rewrite O, Z.add_0_r. split; [auto|]. now rewrite <- E.
Qed.
Example C15_x86_u64 : atomic_layout abi_x86 32 I64 = mklay 8 8 /\
  into_inner 32 I64 (atomic_new abi_x86 32 I64 [Some 1; None; Some 3; None; None; Some 6; Some 7; None]) = Some [Some 1; None; Some 3; None; None; Some 6; Some 7; None].
Proof. split; reflexivity. Qed.

(* ---- C17 ---- *)
Lemma le_num_app l1 l2 : le_num (l1 ++ l2) = le_num l1 + 256 ^ Z.of_nat (length l1) * le_num l2.
Proof.
  induction l1 as [|b l1 IH]; cbn [le_num app length]; [change (256 ^ Z.of_nat 0) with 1; lia|]. rewrite IH, Nat2Z.inj_succ, Z.pow_succ_r by lia. ring.
Qed.
Lemma le_num_zeros n : le_num (repeat 0 n) = 0.
Proof. induction n; cbn [le_num repeat]; lia. Qed.
Lemma le_num_range l : Forall (fun b => 0 <= b < 256) l -> 0 <= le_num l < 256 ^ Z.of_nat (length l).
Proof.
  induction 1 as [|b l H _ IH]; cbn [le_num length]; [cbn; lia|]. rewrite Nat2Z.inj_succ, Z.pow_succ_r by lia. lia.
Qed.
Lemma p256 n : 0 <= n -> 256 ^ n = 2 ^ (8 * n).
Proof. intros. rewrite Z.pow_mul_r by lia. reflexivity. Qed.
Lemma froz_range v bs : Forall2 frozen v bs -> Forall (fun b => 0 <= b < 256) bs.
Proof. induction 1 as [|x b v bs [H _] _ IH]; constructor; auto. Qed.
Lemma froz_len v bs : Forall2 frozen v bs -> length v = length bs.
Proof. induction 1; cbn; auto. Qed.
Lemma num_range e v bs : Forall2 frozen v bs -> 0 <= num e bs < 2 ^ (8 * Z.of_nat (length v)).
Proof.
  intros H. rewrite <- p256 by lia. rewrite (froz_len _ _ H). pose proof (froz_range _ _ H) as R. destruct e; cbn [num]; [now apply le_num_range|].
  rewrite <- rev_length. apply le_num_range. now apply Forall_rev.
Qed.
Lemma holds_range e v z : may_hold e v z -> 0 <= z < 2 ^ (8 * Z.of_nat (length v)).
Proof. intros (bs & F & ->). now apply num_range. Qed.
Lemma froz_zero n bs : Forall2 frozen (repeat (Some 0) n) bs -> bs = repeat 0 n.
Proof. revert bs. induction n as [|n IH]; intros bs H; cbn in H; inversion H; subst; [reflexivity|]. cbn. f_equal; [apply H2|auto]. Qed.
Lemma froz_zeros n : Forall2 frozen (repeat (Some 0) n) (repeat 0 n).
Proof. induction n; cbn; constructor; auto. split; [lia|auto]. Qed.
Lemma rev_repeat {A} (x : A) n : rev (repeat x n) = repeat x n.
Proof. induction n as [|n IH]; [reflexivity|]. cbn [repeat rev]. rewrite IH. symmetry. apply repeat_cons. Qed.
Lemma zero_extended_holds e v N z : may_hold e (zero_extended e v N) z <-> may_hold e v z.
Proof.
  unfold zero_extended, may_hold. destruct e; cbn [num]; split.
  - intros (bs & F & ->). apply Forall2_app_inv_l in F. destruct F as (b1 & b2 & F1 & F2 & ->). exists b1. split; auto.
    rewrite le_num_app, (froz_zero _ _ F2), le_num_zeros. lia.
  - intros (bs & F & ->). exists (bs ++ repeat 0 (N * length v)). split; [apply Forall2_app; auto; apply froz_zeros|]. rewrite le_num_app, le_num_zeros. lia.
  - intros (bs & F & ->). apply Forall2_app_inv_l in F. destruct F as (b1 & b2 & F1 & F2 & ->). exists b2. split; auto.
    rewrite rev_app_distr, le_num_app, (froz_zero _ _ F1), rev_repeat, le_num_zeros. lia.
  - intros (bs & F & ->). exists (repeat 0 (N * length v) ++ bs). split; [apply Forall2_app; auto; apply froz_zeros|].
    rewrite rev_app_distr, le_num_app, rev_repeat, le_num_zeros. lia.
Qed.
(* zero-extension: the register-sized value has 32 bits; whatever the uninitialised bytes become, it holds the value itself with zeros above *)
Theorem C17_zero_extend e v : (1 <= length v)%nat ->
  ((length v <= 2)%nat -> length (zero_extend e v) = 4%nat) /\
  forall z, (may_hold e (zero_extend e v) z <-> may_hold e v z) /\ (may_hold e (zero_extend e v) z -> 0 <= z < 2 ^ (8 * Z.of_nat (length v))).
Proof.
  intros L. assert (forall z, may_hold e (zero_extend e v) z <-> may_hold e v z) as H.
  { intros z. unfold zero_extend. destruct (length v) as [|[|[|n]]]; try apply zero_extended_holds; reflexivity. }
  split; [|intros z; split; [apply H|intros Z; apply H in Z; now apply holds_range in Z]].
  intros L2. unfold zero_extend. destruct (length v) as [|[|[|n]]] eqn:E; try lia; unfold zero_extended; destruct e; unfold aval, abyte in *; rewrite app_length, repeat_length, !E; reflexivity.
Qed.
Theorem C17_zero_extend64_ptr e v : length v = 4%nat ->
  length (zero_extend64_ptr e v) = 8%nat /\ forall z, may_hold e (zero_extend64_ptr e v) z <-> may_hold e v z.
Proof.
  intros L. split; [|intros z; apply zero_extended_holds]. unfold zero_extend64_ptr, zero_extended. destruct e; unfold aval, abyte in *; rewrite app_length, repeat_length, !L; reflexivity.
Qed.

(* splitting into a pair and putting it together *)
Lemma half_len {A} (v : list A) h : length v = (h + h)%nat -> Nat.div2 (length v) = h.
Proof. intros ->. replace (h + h)%nat with (2 * h)%nat by lia. apply Nat.div2_double. Qed.
Theorem C17_pair_bytes t e v h : length v = (h + h)%nat ->
  let '(lo, hi) := pair_fields t e v in length lo = h /\ length hi = h /\ pair_value t e lo hi = v.
Proof.
  intros L. unfold pair_fields, pair_value. rewrite (half_len v h L). destruct (pair_lo_first t e); rewrite firstn_length, skipn_length, L; (split; [lia|split; [lia|]]); apply firstn_skipn.
Qed.
Theorem C17_pair_fields t e lo hi : length lo = length hi -> pair_fields t e (pair_value t e lo hi) = (lo, hi).
Proof.
  intros L. unfold pair_fields, pair_value. destruct (pair_lo_first t e); rewrite app_length.
  - rewrite L, (half_len hi (length hi)) || idtac. replace (Nat.div2 (length lo + length hi)) with (length lo).
    + now rewrite firstn_app, skipn_app, Nat.sub_diag, firstn_all, skipn_all, app_nil_r.
    + rewrite <- L. replace (length lo + length lo)%nat with (2 * length lo)%nat by lia. now rewrite Nat.div2_double.
  - replace (Nat.div2 (length hi + length lo)) with (length hi).
    + now rewrite firstn_app, skipn_app, Nat.sub_diag, firstn_all, skipn_all, app_nil_r.
    + rewrite L. replace (length hi + length hi)%nat with (2 * length hi)%nat by lia. now rewrite Nat.div2_double.
Qed.
(* the halves as numbers, of [k] bits: a register pair can be passed to machine code for the value exactly if the whole value can be passed
   in one register of twice the width; [pair_join], [pair_lo], [pair_hi] are the encodings used in the models of the asm blocks *)
Theorem C17_pair_join t e lo hi x y h : length lo = h -> length hi = h -> may_hold e lo x -> may_hold e hi y ->
  may_hold e (pair_value t e lo hi) (pair_join t e (8 * Z.of_nat h) x y).
Proof.
  intros L1 L2 (b1 & F1 & ->) (b2 & F2 & ->). unfold pair_join, pair_value, hi_first_sig.
  pose proof (froz_len _ _ F1) as E1. pose proof (froz_len _ _ F2) as E2.
  destruct e, (pair_lo_first t _) eqn:P; cbn [Bool.eqb num]; try (cbn in P; discriminate P).
  - exists (b1 ++ b2). split; [apply Forall2_app; auto|]. cbn [num]. rewrite le_num_app, <- E1, L1, p256 by lia. lia.
  - exists (b1 ++ b2). split; [apply Forall2_app; auto|]. cbn [num]. rewrite rev_app_distr, le_num_app, rev_length, <- E2, L2, p256 by lia. lia.
  - exists (b2 ++ b1). split; [apply Forall2_app; auto|]. cbn [num]. rewrite rev_app_distr, le_num_app, rev_length, <- E1, L1, p256 by lia. lia.
Qed.
Theorem C17_pair_split t e v z h : length v = (h + h)%nat -> may_hold e v z ->
  let '(lo, hi) := pair_fields t e v in may_hold e lo (pair_lo t e (8 * Z.of_nat h) z) /\ may_hold e hi (pair_hi t e (8 * Z.of_nat h) z).
Proof.
  intros L (bs & F & ->). unfold pair_fields. rewrite (half_len v h L).
  assert (forall b1 b2, length b1 = h -> length b2 = h -> Forall (fun b => 0 <= b < 256) b1 -> 
     low (8 * Z.of_nat h) (le_num b1 + 2 ^ (8 * Z.of_nat h) * le_num b2) = le_num b1 /\ Z.shiftr (le_num b1 + 2 ^ (8 * Z.of_nat h) * le_num b2) (8 * Z.of_nat h) = le_num b2) as K.
  { intros b1 b2 L1 L2 R. pose proof (le_num_range _ R) as R1. rewrite L1, p256 in R1 by lia. assert (0 < 2 ^ (8 * Z.of_nat h)) by (apply Z.pow_pos_nonneg; lia). split.
    - unfold low. rewrite Z.mul_comm, Z.mod_add by lia. now apply Z.mod_small.
    - rewrite Z.shiftr_div_pow2 by lia. rewrite Z.mul_comm, Z.div_add by lia. rewrite Z.div_small by lia. lia. }
  assert (F' : Forall2 frozen (firstn h v ++ skipn h v) bs) by now rewrite firstn_skipn.
  apply Forall2_app_inv_l in F'. destruct F' as (b1 & b2 & F1 & F2 & ->). pose proof (froz_len _ _ F1) as E1. pose proof (froz_len _ _ F2) as E2.
  rewrite firstn_length, L in E1. rewrite skipn_length, L in E2. pose proof (froz_range _ _ F1) as R1. pose proof (froz_range _ _ F2) as R2.
  unfold pair_lo, pair_hi, hi_first_sig. destruct e, (pair_lo_first t _) eqn:P; cbn [Bool.eqb num]; try (cbn in P; discriminate P).
  - rewrite le_num_app, <- E1, p256 by lia. replace (Nat.min h (h + h)) with h by lia. destruct (K b1 b2) as [-> ->]; auto; try lia. split; [exists b1|exists b2]; auto.
  - rewrite rev_app_distr, le_num_app, rev_length, <- E2, p256 by lia. replace (h + h - h)%nat with h by lia.
    destruct (K (rev b2) (rev b1)) as [-> ->]; rewrite ?rev_length; auto; try lia; [now apply Forall_rev|]. split; [exists b1|exists b2]; auto.
  - rewrite rev_app_distr, le_num_app, rev_length, <- E2, p256 by lia. replace (h + h - h)%nat with h by lia.
    destruct (K (rev b2) (rev b1)) as [-> ->]; rewrite ?rev_length; auto; try lia; [now apply Forall_rev|]. split; [exists b2|exists b1]; auto.
Qed.
(* which half is which: `lo` is the less significant half, except on big-endian Arm, where `lo` is the half at the lower address, as the
   register-pair instructions there expect *)
Theorem C17_halves t e k z : 0 <= k -> pair_lo t e k z =
  (if match e, t with BE, (A_aarch64 | A_arm | A_arm64ec) => true | _, _ => false end then z / 2 ^ k else z mod 2 ^ k).
Proof. intros H. unfold pair_lo, hi_first_sig, pair_lo_first, low. destruct e, t; cbn [Bool.eqb]; auto; now rewrite Z.shiftr_div_pow2 by lia. Qed.
Example C17_partial_pair : let v := [Some 1; None; Some 3; Some 4; None; None; Some 7; Some 8] in
  may_hold BE v 0x01aa0304bbcc0708 /\ pair_fields A_s390x BE v = ([None; None; Some 7; Some 8], [Some 1; None; Some 3; Some 4]) /\
  pair_lo A_s390x BE 32 0x01aa0304bbcc0708 = 0xbbcc0708.
Proof.
  cbv zeta. split; [|split; reflexivity]. exists [1; 0xaa; 3; 4; 0xbb; 0xcc; 7; 8]. split; [|reflexivity].
  repeat (constructor; [split; [lia|cbn; auto]|]). constructor.
Qed.
Example C17_partial_zext : zero_extend BE [None; Some 2] = [Some 0; Some 0; None; Some 2] /\ may_hold BE (zero_extend BE [None; Some 2]) 0x9902.
Proof. split; [reflexivity|]. exists [0; 0; 0x99; 2]. split; [|reflexivity]. repeat (constructor; [split; [lia|cbn; auto]|]). constructor. Qed.
