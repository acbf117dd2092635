(* Lemmas for sub-word operations on 32-bit words held in registers (no specifications here). *)
From Verif Require Export Fields Sym.

Definition shl32 (x s : Z) : Z := low 32 (Z.shiftl x s).
Definition shr32 (x s : Z) : Z := Z.shiftr (low 32 x) s.
Definition not32 (x : Z) : Z := 2 ^ 32 - 1 - x.

Lemma shl32_bits x s b : 0 <= b < 32 -> Z.testbit (shl32 x s) b = Z.testbit (Z.shiftl x s) b.
Proof. intros Hb. unfold shl32. rewrite low_bits by lia. destruct (Z.ltb_spec b 32); [reflexivity|lia]. Qed.
Lemma shl32_range x s : 0 <= shl32 x s < 2 ^ 32.
Proof. apply low_range. lia. Qed.
Lemma rdw_range e m a : wf_mem m -> 0 <= rd e m a 4 < 2 ^ 32.
Proof. intros. change 32 with (8 * 4). apply rd_range; auto; lia. Qed.
Lemma low32_rd e m a : wf_mem m -> low 32 (rd e m a 4) = rd e m a 4.
Proof. intros. apply low_id, rdw_range; auto. Qed.
Lemma not32_bits x b : 0 <= x < 2 ^ 32 -> 0 <= b < 32 -> Z.testbit (not32 x) b = negb (Z.testbit x b).
Proof.
  intros Hx Hb. unfold not32. replace (2 ^ 32 - 1 - x) with (Z.lnot x + 1 * 2 ^ 32) by (unfold Z.lnot; lia).
  rewrite <- (Z.mod_pow2_bits_low _ 32) by lia. rewrite Z.mod_add by lia. rewrite Z.mod_pow2_bits_low by lia. apply Z.lnot_spec; lia.
Qed.
Lemma land_not32 x y : 0 <= x < 2 ^ 32 -> 0 <= y < 2 ^ 32 -> Z.land x (not32 y) = Z.ldiff x y.
Proof.
  intros Hx Hy. apply Z.bits_inj'. intros b Hb. rewrite Z.land_spec, Z.ldiff_spec. destruct (Z.ltb_spec b 32).
  - rewrite not32_bits by lia. reflexivity.
  - rewrite (bits_above x 32) by lia. reflexivity.
Qed.

Section Sub.
  Variables (e : endian) (n a dst s : Z).
  Hypothesis (Hin : in_word e 4 dst a n s).
  Let M := Z.shiftl (2 ^ (8 * n) - 1) s.
  Lemma sub_mask_range : 0 <= M < 2 ^ 32.
  Proof using Hin.
    pose proof (in_word_range _ _ _ _ _ _ Hin) as (Hs0 & Hs1 & Hn0). unfold M. rewrite Z.shiftl_mul_pow2 by lia.
    assert (0 < 2 ^ s) by (apply Z.pow_pos_nonneg; lia). assert (0 < 2 ^ (8 * n)) by (apply Z.pow_pos_nonneg; lia).
    assert (2 ^ (8 * n) * 2 ^ s <= 2 ^ 32). { rewrite <- Z.pow_add_r by lia. apply Z.pow_le_mono_r; lia. } nia.
  Qed.
  Lemma sub_mask_shl : shl32 (2 ^ (8 * n) - 1) s = M.
  Proof using Hin. unfold shl32. apply low_id. apply sub_mask_range. Qed.
  Lemma sub_cmp O old m : wf_mem m -> low 32 O = old -> 0 <= old < 2 ^ (8 * n) ->
    (Z.land (rd e m dst 4) M = shl32 O s <-> rd e m a n = old).
  Proof using Hin.
    intros Hm HO Hold. pose proof (in_word_range _ _ _ _ _ _ Hin) as (Hs0 & Hs1 & Hn0).
    rewrite <- (rd_field e 4 dst a n s m) by auto.
    assert (low 32 (Z.land (rd e m dst 4) M) = Z.land (rd e m dst 4) M) as <-.
    { apply Z.bits_inj'. intros b Hb. rewrite low_bits by lia. destruct (Z.ltb_spec b 32); [reflexivity|]. rewrite Z.land_spec.
      rewrite (bits_above (rd e m dst 4) 32); auto. apply rdw_range; auto. }
    assert (low 32 (shl32 O s) = shl32 O s) as <- by (apply low_id, shl32_range).
    change 32 with (8 * 4) at 1 2. apply field_cmp; try lia.
    - intros b Hb. unfold M. rewrite Z.land_spec, shl_mask_bits by lia. reflexivity.
    - intros b Hb. rewrite shl32_bits by lia. apply (shl_val_bits old O 32 s n); auto; lia.
  Qed.
  Lemma sub_out m : wf_mem m -> low (8 * n) (shr32 (rd e m dst 4) s) = rd e m a n.
  Proof using Hin.
    intros Hm. pose proof (in_word_range _ _ _ _ _ _ Hin) as (Hs0 & Hs1 & Hn0).
    unfold shr32. rewrite low32_rd by auto. apply (rd_field e 4 dst a n s); auto.
  Qed.
  (* shifting the masked word *)
  Lemma sub_out_and m : wf_mem m -> low (8 * n) (shr32 (Z.land (rd e m dst 4) M) s) = rd e m a n.
  Proof using Hin.
    intros Hm. pose proof (in_word_range _ _ _ _ _ _ Hin) as (Hs0 & Hs1 & Hn0).
    rewrite <- sub_out by auto. unfold shr32. apply low_eq_bits; [lia|]. intros b Hb.
    rewrite !Z.shiftr_spec by lia. rewrite !low_bits by lia. destruct (Z.ltb_spec (b + s) 32); [|reflexivity]. cbn [andb].
    rewrite Z.land_spec. unfold M. rewrite shl_mask_bits by lia. 
    assert (fmask s n (b + s) = true) as -> by (apply fmask_spec; lia). apply andb_true_r.
  Qed.
  Lemma sub_merge V v m : wf_mem m -> low 32 V = v -> 0 <= v < 2 ^ (8 * n) ->
    field_set (Z.lor (Z.ldiff (rd e m dst 4) M) (shl32 V s)) (rd e m dst 4) s n v 4.
  Proof using Hin.
    intros Hm HV Hv. pose proof (in_word_range _ _ _ _ _ _ Hin) as (Hs0 & Hs1 & Hn0).
    apply merge_or_field.
    - reflexivity.
    - intros b Hb. apply shl_mask_bits; lia.
    - intros b Hb. rewrite shl32_bits by lia. apply (shl_val_bits v V 32 s n); auto; lia.
  Qed.
  Lemma sub_merge_xor V v m : wf_mem m -> low 32 V = v -> 0 <= v < 2 ^ (8 * n) ->
    field_set (Z.lxor (Z.land (Z.lxor (rd e m dst 4) (shl32 V s)) M) (rd e m dst 4)) (rd e m dst 4) s n v 4.
  Proof using Hin.
    intros Hm HV Hv. pose proof (in_word_range _ _ _ _ _ _ Hin) as (Hs0 & Hs1 & Hn0).
    apply merge_xor_field'.
    - reflexivity.
    - intros b Hb. apply shl_mask_bits; lia.
    - intros b Hb F. rewrite shl32_bits by lia. rewrite (shl_val_bits v V 32 s n) by (auto; lia). now rewrite F.
  Qed.
End Sub.
Lemma field_set_ext32 w w' w0 s n v : (forall b, 0 <= b < 32 -> Z.testbit w b = Z.testbit w' b) ->
  field_set w' w0 s n v 4 -> field_set w w0 s n v 4.
Proof. intros H F b Hb. rewrite H by lia. apply F; auto. Qed.
Lemma sub_merge_hi e n a dst s (Hin : in_word e 4 dst a n s) V V' v m : wf_mem m -> low 32 V = v -> low 32 V' = shl32 V s -> 0 <= v < 2 ^ (8 * n) ->
  field_set (Z.lor (Z.ldiff (rd e m dst 4) (Z.shiftl (2 ^ (8 * n) - 1) s)) V') (rd e m dst 4) s n v 4.
Proof.
  intros Hm HV HV' Hv. eapply field_set_ext32; [|apply (sub_merge e n a dst s Hin V v m); auto].
  intros b Hb. rewrite !Z.lor_spec. f_equal. apply (eq_low_bits 32); [|lia]. rewrite HV'. symmetry. apply low_id, shl32_range.
Qed.
Lemma sub_and_range e n a dst s (Hin : in_word e 4 dst a n s) m : wf_mem m ->
  low 32 (Z.land (rd e m dst 4) (Z.shiftl (2 ^ (8 * n) - 1) s)) = Z.land (rd e m dst 4) (Z.shiftl (2 ^ (8 * n) - 1) s).
Proof.
  intros Hm. apply Z.bits_inj'. intros b Hb. rewrite low_bits by lia. destruct (Z.ltb_spec b 32); [reflexivity|]. rewrite Z.land_spec.
  rewrite (bits_above (rd e m dst 4) 32); auto. apply rdw_range; auto.
Qed.
