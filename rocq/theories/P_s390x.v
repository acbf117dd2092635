From Verif Require Import Sym Arch_s390x Fields.

Ltac unfa := unfold sz_l, sz_st, sz_cs, jl, jlh, rll, risbg, llr, cr, lpq, stpq, cdsg, ipm.

(* ---- condition-code extraction (C18) ---- *)
Lemma extract_cc_spec r cc : 0 <= r < 2 ^ 64 -> 0 <= cc < 4 -> low 2 (Z.shiftr r 28) = cc -> low 2 (Z.shiftr r 30) = 0 ->
  extract_cc r = (cc =? 0).
Proof.
  intros Hr Hcc H1 H2. unfold extract_cc.
  replace (Z.land (low 64 (r - 268435456)) (2 ^ 31) =? 0) with (negb (Z.testbit (low 64 (r - 268435456)) 31)).
  2:{ rewrite Z.land_comm. replace (Z.land (2 ^ 31) (low 64 (r - 268435456))) with (if Z.testbit (low 64 (r - 268435456)) 31 then 2 ^ 31 else 0).
      - destruct (Z.testbit (low 64 (r - 268435456)) 31); reflexivity.
      - apply Z.bits_inj'. intros b Hb. rewrite Z.land_spec. rewrite Z.pow2_bits_eqb by lia.
        destruct (Z.eqb_spec 31 b) as [<-|Hb'].
        + destruct (Z.testbit (low 64 (r - 268435456)) 31); [|reflexivity]. reflexivity.
        + destruct (Z.testbit (low 64 (r - 268435456)) 31); [|apply Z.bits_0]. rewrite Z.pow2_bits_eqb by lia. now apply Z.eqb_neq. }
  rewrite negb_involutive. rewrite low_bits by lia. cbn [Z.ltb Z.compare Pos.compare Pos.compare_cont andb].
  unfold low in H1, H2. rewrite !Z.shiftr_div_pow2 in H1, H2 by lia.
  rewrite <- Z.testbit_spec' in * || idtac.
  assert (Z.b2z (Z.testbit (r - 268435456) 31) = b2z (cc =? 0)) as E.
  { rewrite Z.testbit_spec' by lia. change (2 ^ 28) with 268435456 in H1. change (2 ^ 30) with 1073741824 in H2.
    change (2 ^ 2) with 4 in *. change (2 ^ 31) with 2147483648.
    destruct (Z.eqb_spec cc 0); cbn [b2z]; Z.div_mod_to_equations; nia. }
  destruct (Z.testbit (r - 268435456) 31), (cc =? 0); cbn in E; congruence.
Qed.

Lemma ipm_extract j cc : 0 <= cc < 4 -> extract_cc (ipm_val j cc) = (cc =? 0).
Proof.
  intros Hcc. unfold ipm_val.
  pose proof (low_range 28 j ltac:(lia)) as H1. pose proof (low_range 32 (Z.shiftr j 28) ltac:(lia)) as H2.
  set (x := low 28 j) in *. set (y := low 32 (Z.shiftr j 28)) in *. clearbody x y.
  apply extract_cc_spec; auto.
  - change (2 ^ 28) with 268435456 in *. change (2 ^ 32) with 4294967296 in *. change (2 ^ 64) with 18446744073709551616. nia.
  - unfold low. rewrite Z.shiftr_div_pow2 by lia. change (2 ^ 28) with 268435456 in *. change (2 ^ 2) with 4. Z.div_mod_to_equations; nia.
  - unfold low. rewrite Z.shiftr_div_pow2 by lia. change (2 ^ 28) with 268435456 in *. change (2 ^ 30) with 1073741824. change (2 ^ 2) with 4. Z.div_mod_to_equations; nia.
Qed.

(* ---- words ---- *)
Lemma sz_load_fn_atomic n a : 0 < n -> 8 * n <= 64 -> atomic_fx BE (sz_load_fn n a) (load_spec BE a n).
Proof.
  intros Hn Hw. unfold sz_load_fn. unfa. start f r. go. commit_at (o_mem o) (rd BE (o_mem o) a n).
  { apply load_spec_refl. }
  done_q. f_equal. rewrite Hin, Z.add_0_r. rewrite junk_hi_low by lia. apply rd_low; auto; lia.
Qed.
Lemma sz_store_fn_atomic n a v t : 0 < n -> atomic_fx BE (sz_store_fn n a v t) (store_spec BE a n v).
Proof.
  intros Hn. unfold sz_store_fn. unfa. start f r. destruct Hin as [Ha Hv].
  stp. lin_at tt. { unfold store_spec; rewrite Ha, ?Z.add_0_r; eapply wr_opnd; eauto; lia. }
  goq. done_q. reflexivity.
Qed.
Lemma sz_swap_fn_atomic n a v : 0 < n -> 8 * n <= 64 -> atomic_fx BE (sz_swap_fn n a v) (swap_spec BE a n v).
Proof.
  intros Hn Hw. unfold sz_swap_fn. unfa.
  loop_inv 1%nat (fun f : regs => f Dst = a /\ opnd 64 (8 * n) v (f Val)) Loop.
  { pose proof Hi as [Fd Fv]. go. stp. rewrite Fd. br_case HE; cbnx.
    - lin_at (rd BE (o_mem o0) a n). { split; [reflexivity|]. eapply wr_opnd; eauto; lia. }
      stq. silq. done_q. f_equal. exact HE.
    - sil. stp. sil. apply weaken. apply IH; cbnx; auto; lts. }
  start f r. stp. sil. apply weaken. apply Loop. auto.
Qed.
Lemma sz_cas_fn_atomic n a old new : 0 < n -> 8 * n <= 64 -> atomic_fx BE (sz_cas_fn n a old new) (cas_spec BE a n old new).
Proof.
  intros Hn Hw. unfold sz_cas_fn. unfa. start f r. destruct Hin as (Fd & [_ Fo] & Fn).
  stp. rewrite Fd, Fo. br_case HE; cbnx.
  - lin_at (rd BE (o_mem o) a n, true).
    { split; [reflexivity|]. cbn [fst snd]. split; [auto|]. eapply wr_opnd; eauto; lia. }
    stq. silq. done_q. rewrite ipm_extract by lia. rewrite Fo, HE. reflexivity.
  - lin_at (rd BE (o_mem o) a n, false). { apply cas_fail_spec. auto. }
    stq. silq. done_q. rewrite ipm_extract by lia. rewrite junk_hi_low by lia. rewrite rd_low by (auto; lia). reflexivity.
Qed.

(* ---- 128 bits ---- *)
Lemma sz_load128_fn_atomic a : atomic_fx BE (sz_load128_fn a) (load_spec BE a 16).
Proof.
  unfold sz_load128_fn. unfa. start f r. go. commit_at (o_mem o) (rd BE (o_mem o) a 16).
  { apply load_spec_refl. }
  done_q. rewrite Hin. f_equal. apply (join_low_shiftr 64); lia.
Qed.
Lemma pair_bounds v : 0 <= v < 2 ^ 128 -> 0 <= low 64 v < 2 ^ 64.
Proof. intros. apply low_range; lia. Qed.
Lemma sz_store128_fn_atomic a v t : atomic_fx BE (sz_store128_fn a v t) (store_spec BE a 16 v).
Proof.
  unfold sz_store128_fn. unfa. start f r. destruct Hin as (Fd & F0 & F1).
  stp. lin_at tt. { unfold store_spec. rewrite Fd, F0, F1. cbn [pair_hi pair_lo hi_first_sig pair_lo_first Bool.eqb].
    unfold pair_hi, pair_lo. cbn [hi_first_sig pair_lo_first Bool.eqb]. rewrite low_low by lia. rewrite join_low_shiftr by lia. apply meq_refl. }
  goq. done_q. reflexivity.
Qed.
Lemma sz_swap128_fn_atomic a v : atomic_fx BE (sz_swap128_fn a v) (swap_spec BE a 16 v).
Proof.
  unfold sz_swap128_fn. unfa.
  loop_inv 2%nat (fun f : regs => f Dst = a /\ 0 <= f AR1 < 2 ^ 64 /\ f AR2 = pair_hi A_s390x BE 64 v /\ f AR3 = pair_lo A_s390x BE 64 v) Loop.
  { pose proof Hi as (Fd & Fr & F2 & F3). go. stp. rewrite Fd. br_case HE; cbnx.
    - lin_at (rd BE (o_mem o0) a 16).
      { split; [reflexivity|]. rewrite F2, F3. unfold pair_hi, pair_lo. cbn [hi_first_sig pair_lo_first Bool.eqb].
        rewrite low_low by lia. rewrite join_low_shiftr by lia. apply meq_refl. }
      stq. silq. done_q. f_equal. rewrite low_id in HE by auto. exact HE.
    - sil. stp. sil. apply weaken. apply IH; cbnx; [lts|]. repeat split; auto; apply low_range; lia. }
  start f r. destruct Hin as (Fd & F2 & F3). do 2 (stp; sil). apply weaken. apply Loop; cbnx.
  split; [exact Fd|]. split; [|auto]. apply (junk_hi_range 64); lia.
Qed.
Lemma sz_cas128_fn_atomic a old new : 0 <= old < 2 ^ 128 -> atomic_fx BE (sz_cas128_fn a old new) (cas_spec BE a 16 old new).
Proof.
  intros Ho. unfold sz_cas128_fn. unfa. start f r. destruct Hin as (Fd & F0 & F1 & F2 & F3).
  assert (low 64 (f AR1) + f AR0 * 2 ^ 64 = old) as Eo.
  { rewrite F0, F1. unfold pair_hi, pair_lo. cbn [hi_first_sig pair_lo_first Bool.eqb]. rewrite low_low by lia. apply join_low_shiftr; lia. }
  assert (low 64 (f AR3) + f AR2 * 2 ^ 64 = new) as En.
  { rewrite F2, F3. unfold pair_hi, pair_lo. cbn [hi_first_sig pair_lo_first Bool.eqb]. rewrite low_low by lia. apply join_low_shiftr; lia. }
  stp. rewrite Fd, Eo, En. br_case HE; cbnx.
  - lin_at (rd BE (o_mem o) a 16, true).
    { split; [reflexivity|]. cbn [fst snd]. split; [auto|]. apply meq_refl. }
    stq. silq. done_q. rewrite ipm_extract by lia. rewrite <- HE, F0, F1. rewrite pair_join_split by lia. reflexivity.
  - lin_at (rd BE (o_mem o) a 16, false). { apply cas_fail_spec. auto. }
    stq. silq. done_q. rewrite ipm_extract by lia. unfold pair_join. cbn [hi_first_sig pair_lo_first Bool.eqb]. rewrite join_low_shiftr by lia. reflexivity.
Qed.

(* ---- sub-word ---- *)
Lemma mod32_sub b k : 0 <= b < 32 -> (b - k) mod 32 = if k mod 32 <=? b then b - k mod 32 else b - k mod 32 + 32.
Proof.
  intros Hb. pose proof (Z.mod_pos_bound k 32 ltac:(lia)). pose proof (Z.div_mod k 32 ltac:(lia)) as E.
  destruct (Z.leb_spec (k mod 32) b).
  - symmetry. apply Z.mod_unique with (q := - (k / 32)); lia.
  - symmetry. apply Z.mod_unique with (q := - (k / 32) - 1); lia.
Qed.
Lemma rotl32_bits x k b : 0 <= x < 2 ^ 32 -> 0 <= b < 32 -> Z.testbit (rotl32 x k) b = Z.testbit x ((b - k) mod 32).
Proof.
  intros Hx Hb. pose proof (Z.mod_pos_bound k 32 ltac:(lia)) as Hk. rewrite mod32_sub by auto. unfold rotl32.
  rewrite Z.lor_spec, low_bits, Z.shiftl_spec, Z.shiftr_spec by lia.
  destruct (Z.ltb_spec b 32); [|lia]. cbn [andb]. destruct (Z.leb_spec (k mod 32) b).
  - rewrite (bits_above x 32 (b + (32 - k mod 32))) by (auto; lia). apply orb_false_r.
  - rewrite (Z.testbit_neg_r x (b - k mod 32)) by lia. cbn [orb]. f_equal. lia.
Qed.
Lemma risbg_bits x y i3 i4 i5 b : 0 <= y < 2 ^ 64 -> 0 <= i3 <= i4 -> i4 <= 63 -> 0 <= i5 < 64 -> i5 <= 63 - i4 -> 0 <= b < 64 ->
  Z.testbit (risbg_val x y i3 i4 i5) b = if (63 - i4 <=? b) && (b <=? 63 - i3) then Z.testbit y (b - i5) else Z.testbit x b.
Proof.
  intros Hy H34 H4 H5 H54 Hb. unfold risbg_val, rotl64.
  rewrite Z.lor_spec, Z.ldiff_spec, Z.land_spec, Z.lor_spec, low_bits, !Z.shiftl_spec, Z.shiftr_spec by lia.
  destruct (Z.ltb_spec b 64); [|lia]. cbn [andb].
  destruct (Z.leb_spec (63 - i4) b); cbn [andb].
  - rewrite ones_bits by lia. destruct (Z.leb_spec b (63 - i3)); destruct (Z.ltb_spec (b - (63 - i4)) (i4 - i3 + 1)); try lia; cbn [negb].
    + rewrite (bits_above y 64 (b + (64 - i5))) by (auto; lia). rewrite !andb_false_r, andb_true_r, orb_false_r. reflexivity.
    + rewrite !andb_true_r, andb_false_r, orb_false_r. reflexivity.
  - rewrite (Z.testbit_neg_r _ (b - (63 - i4))) by lia. cbn [negb]. rewrite andb_true_r, andb_false_r, orb_false_r. reflexivity.
Qed.

Lemma shift_low_mod x shift : low 32 x = shift -> forall d, (d + x) mod 32 = (d + shift) mod 32.
Proof.
  intros <- d. unfold low. rewrite <- (Z.add_mod_idemp_r d (x mod 2 ^ 32)) by lia. rewrite <- (Z.add_mod_idemp_r d x) by lia.
  f_equal. f_equal. change 32 with (2 ^ 5) at 3. rewrite mod_mod_pow by lia. reflexivity.
Qed.

(* [shift] as computed for the cell: 32 * q + 8 * (a mod 4) *)
Lemma rot_eq x k k' : k mod 32 = k' mod 32 -> rotl32 x k = rotl32 x k'.
Proof. unfold rotl32. intros ->. reflexivity. Qed.

Section SubWord.
  Variables (n p s : Z).
  Hypothesis (Hn : n = 1 \/ n = 2) (Hp : 0 <= p) (Hpn : p + n <= 4) (Hs : s = 8 * (4 - n - p)).

  (* cell extraction: rll by bits + shift *)
  Lemma sz_out W k : 0 <= W < 2 ^ 32 -> k mod 32 = (sz_bits n + 8 * p) mod 32 ->
    low (8 * n) (rotl32 W k) = low (8 * n) (Z.shiftr W s).
  Proof using Hn Hp Hpn Hs.
    intros HW Hk. apply low_eq_bits; [lia|]. intros b Hb. rewrite rotl32_bits, Z.shiftr_spec by lia. f_equal.
    assert (sz_bits n = 8 * n) as Ez by (destruct Hn as [-> | ->]; reflexivity). rewrite Ez in Hk.
    rewrite mod32_sub, Hk by lia.
    destruct (Z.eq_dec (8 * n + 8 * p) 32) as [Q|Q].
    - rewrite Q. change (32 mod 32) with 0. destruct (Z.leb_spec 0 b); lia.
    - rewrite Z.mod_small by lia. destruct (Z.leb_spec (8 * n + 8 * p) b); lia.
  Qed.
  (* swap: rotate the cell to the top, insert, rotate back *)
  Lemma sz_swap_word W V v x j1 sh shc :
    0 <= W < 2 ^ 32 -> sh mod 32 = (8 * p) mod 32 -> shc mod 32 = (- (8 * p)) mod 32 ->
    0 <= V < 2 ^ 64 -> low (8 * n) V = v ->
    x = risbg_val (junk_hi 64 32 (rotl32 W sh) j1) V 32 (fst (sz_risbg_swap n)) (snd (sz_risbg_swap n)) ->
    field_set (rotl32 (low 32 x) shc) W s n v 4.
  Proof using Hn Hp Hpn Hs.
    intros HW Hsh Hshc HV Hv Hx b Hb. rewrite rotl32_bits by (try apply low_range; lia).
    assert ((b - shc) mod 32 = if b + 8 * p <? 32 then b + 8 * p else b + 8 * p - 32) as EB.
    { rewrite <- Zminus_mod_idemp_r, Hshc, Zminus_mod_idemp_r. replace (b - - (8 * p)) with (b + 8 * p) by lia.
      destruct (Z.ltb_spec (b + 8 * p) 32); [apply Z.mod_small; lia|].
      symmetry. apply Z.mod_unique with (q := 1); lia. }
    rewrite EB. set (b' := if b + 8 * p <? 32 then b + 8 * p else b + 8 * p - 32) in *.
    assert (0 <= b' < 32) as Hb'. { subst b'. destruct (Z.ltb_spec (b + 8 * p) 32); lia. }
    assert (sz_risbg_swap n = (31 + 8 * n, 32 - 8 * n)) as Er by (destruct Hn as [-> | ->]; reflexivity).
    rewrite Er in Hx. cbn [fst snd] in Hx.
    rewrite low_bits by lia. destruct (Z.ltb_spec b' 32); [|lia]. cbn [andb]. rewrite Hx.
    rewrite risbg_bits by lia. rewrite junk_hi_bits by lia. rewrite rotl32_bits by lia.
    assert ((b' - sh) mod 32 = b) as Eback.
    { rewrite <- Zminus_mod_idemp_r, Hsh, Zminus_mod_idemp_r. subst b'. symmetry.
      destruct (Z.ltb_spec (b + 8 * p) 32); [apply Z.mod_unique with (q := 0)|apply Z.mod_unique with (q := -1)]; lia. }
    rewrite Eback.
    replace ((63 - (31 + 8 * n) <=? b') && (b' <=? 63 - 32)) with ((s <=? b) && (b <? s + 8 * n)).
    2:{ subst b'. destruct (Z.ltb_spec (b + 8 * p) 32).
        - destruct (Z.leb_spec s b), (Z.ltb_spec b (s + 8 * n)), (Z.leb_spec (63 - (31 + 8 * n)) (b + 8 * p)), (Z.leb_spec (b + 8 * p) (63 - 32)); cbn; try reflexivity; lia.
        - destruct (Z.leb_spec s b), (Z.ltb_spec b (s + 8 * n)), (Z.leb_spec (63 - (31 + 8 * n)) (b + 8 * p - 32)), (Z.leb_spec (b + 8 * p - 32) (63 - 32)); cbn; try reflexivity; lia. }
    destruct ((s <=? b) && (b <? s + 8 * n)) eqn:C; [|reflexivity].
    apply andb_true_iff in C. destruct C as [C1 C2]. apply Z.leb_le in C1. apply Z.ltb_lt in C2.
    subst b'. destruct (Z.ltb_spec (b + 8 * p) 32); [|lia]. subst v. rewrite low_bits by lia.
    destruct (Z.ltb_spec (b - s) (8 * n)); [|lia]. cbn [andb]. f_equal. lia.
  Qed.
  (* compare_exchange: rotate the cell to the bottom, insert the rest of the word around `new`, rotate back *)
  Lemma sz_cas_word W N new x j1 sh shc :
    0 <= W < 2 ^ 32 -> sh mod 32 = (sz_bits n + 8 * p) mod 32 -> shc mod 32 = (- sz_bits n - 8 * p) mod 32 ->
    low (8 * n) N = new ->
    x = risbg_val N (junk_hi 64 32 (rotl32 W sh) j1) 32 (sz_risbg_cas n) 0 ->
    low (8 * n) x = new /\ field_set (rotl32 (low 32 x) shc) W s n new 4.
  Proof using Hn Hp Hpn Hs.
    intros HW Hsh Hshc Hnew Hx.
    assert (sz_bits n = 8 * n) as Ez by (destruct Hn as [-> | ->]; reflexivity). rewrite Ez in *.
    assert (sz_risbg_cas n = 63 - 8 * n) as Er by (destruct Hn as [-> | ->]; reflexivity). rewrite Er in Hx.
    assert (forall b, 0 <= b < 32 -> Z.testbit x b = if b <? 8 * n then Z.testbit new b else Z.testbit W ((b - sh) mod 32)) as XB.
    { intros b Hb. rewrite Hx. rewrite risbg_bits by (try apply junk_hi_range; lia).
      replace (63 - (63 - 8 * n)) with (8 * n) by lia. destruct (Z.leb_spec (8 * n) b); destruct (Z.ltb_spec b (8 * n)); try lia.
      - destruct (Z.leb_spec b (63 - 32)); [|lia]. cbn [andb]. rewrite Z.sub_0_r, junk_hi_bits by lia. apply rotl32_bits; auto.
      - cbn [andb]. rewrite <- Hnew, low_bits by lia. destruct (Z.ltb_spec b (8 * n)); [reflexivity|lia]. }
    split.
    { rewrite <- Hnew, <- (low_low (8 * n) (8 * n) N) by lia. apply low_eq_bits; [lia|]. intros b Hb.
      rewrite XB by lia. destruct (Z.ltb_spec b (8 * n)); [|lia]. rewrite Hnew. reflexivity. }
    intros b Hb. rewrite rotl32_bits by (try apply low_range; lia).
    assert ((b - shc) mod 32 = if b + 8 * n + 8 * p <? 32 then b + 8 * n + 8 * p else b + 8 * n + 8 * p - 32) as EB.
    { rewrite <- Zminus_mod_idemp_r, Hshc, Zminus_mod_idemp_r. replace (b - (- (8 * n) - 8 * p)) with (b + 8 * n + 8 * p) by lia.
      destruct (Z.ltb_spec (b + 8 * n + 8 * p) 32); [apply Z.mod_small; lia|].
      symmetry. apply Z.mod_unique with (q := 1); lia. }
    rewrite EB. set (b' := if b + 8 * n + 8 * p <? 32 then _ else _) in *.
    assert (0 <= b' < 32) as Hb'. { subst b'. destruct (Z.ltb_spec (b + 8 * n + 8 * p) 32); lia. }
    rewrite low_bits by lia. destruct (Z.ltb_spec b' 32); [|lia]. cbn [andb]. rewrite XB by auto.
    assert ((b' - sh) mod 32 = b) as Eback.
    { rewrite <- Zminus_mod_idemp_r, Hsh, Zminus_mod_idemp_r. subst b'. symmetry.
      destruct (Z.ltb_spec (b + 8 * n + 8 * p) 32); [apply Z.mod_unique with (q := 0)|apply Z.mod_unique with (q := -1)]; lia. }
    rewrite Eback. subst b'.
    destruct (Z.ltb_spec (b + 8 * n + 8 * p) 32).
    - destruct (Z.ltb_spec (b + 8 * n + 8 * p) (8 * n)); [lia|].
      destruct (Z.leb_spec s b); [lia|]. reflexivity.
    - destruct (Z.ltb_spec (b + 8 * n + 8 * p - 32) (8 * n)); destruct (Z.leb_spec s b); destruct (Z.ltb_spec b (s + 8 * n)); try lia; cbn [andb]; try reflexivity.
      f_equal. lia.
  Qed.
End SubWord.

Lemma rot_low_arg x W k : 0 <= W < 2 ^ 32 -> low 32 x = W -> rotl32 (low 32 x) k = rotl32 W k.
Proof. intros _ ->. reflexivity. Qed.
Lemma field_set_ext w w' w0 s n v : (forall b, 0 <= b < 32 -> Z.testbit w b = Z.testbit w' b) ->
  field_set w' w0 s n v 4 -> field_set w w0 s n v 4.
Proof. intros H F b Hb. rewrite H by lia. apply F; auto. Qed.
Lemma neg_shift_mod x shift : low 32 x = low 32 (- shift) -> forall d, (d + x) mod 32 = (d - shift) mod 32.
Proof.
  intros E d. rewrite (shift_low_mod x (low 32 (- shift)) E d). rewrite <- (shift_low_mod (- shift) (low 32 (- shift)) eq_refl d).
  f_equal; lia.
Qed.
Lemma rd4_range m a : wf_mem m -> 0 <= rd BE m a 4 < 2 ^ 32.
Proof. intros. change 32 with (8 * 4). apply rd_range; auto; lia. Qed.

Lemma sz_swap_sub_fn_atomic n a v : n = 1 \/ n = 2 -> 0 <= a < 2 ^ 64 -> a mod n = 0 -> 0 <= v < 2 ^ (8 * n) ->
  atomic_fx BE (sz_swap_sub_fn n a v) (swap_spec BE a n v).
Proof.
  intros Hn Ha Hal Hv. unfold sz_swap_sub_fn.
  destruct (create_sub_word_mask_values A_s390x BE 64 32 n a) as [[dst shift] mask] eqn:E.
  apply sub_word_ok_s390x in E; try lia.
  unfa. destruct E as (Ed & _ & _ & Hin_w & Hs & _).
  pose proof (in_word_range _ _ _ _ _ _ Hin_w) as (Hs0 & Hs1 & Hn0).
  pose proof (Z.mod_pos_bound a 4 ltac:(lia)) as Hp. cbn [field_pos] in *. set (p := a mod 4) in *.
  assert (p + n <= 4) as Hpn by lia.
  set (s := 8 * (4 - n - p)) in *.
  assert (shift mod 32 = (8 * p) mod 32) as Hs'. { rewrite Hs. symmetry. apply Z.mod_small. lia. }
  loop_inv 1%nat (fun f : regs => f Dst = dst /\ opnd 64 (8 * n) v (f Val) /\ opnd 64 32 shift (f Shift) /\
      opnd 64 32 (low 32 (- shift)) (f ShiftC)) Loop.
  { pose proof Hi as (Fd & [Fvr Fv] & [_ Fs] & [_ Fc]).
    do 4 (stp; sil). stp. rewrite Fd. change (8 * 4) with 32. br_case HE; cbnx.
    - pose proof (rd4_range (o_mem o3) dst Ho3) as HW.
      lin_at (rd BE (o_mem o3) a n).
      { split; [reflexivity|]. eapply wr_field; eauto.
        eapply field_set_ext; [intros b Hb; apply (junk_hi_bits 64 32); lia|].
        rewrite HE.
        eapply (sz_swap_word n p s Hn ltac:(lia) Hpn eq_refl (rd BE (o_mem o3) dst 4) (f Val) v); [auto| | |auto|auto|reflexivity].
        - rewrite <- Hs'. rewrite (shift_low_mod (f Shift) shift Fs 0). f_equal; lia.
        - rewrite (neg_shift_mod (f ShiftC) shift Fc 0). rewrite <- (Z.sub_0_l (8 * p)). rewrite Zminus_mod, Hs', <- Zminus_mod. reflexivity. }
      stq. silq. stq. silq. done_q. f_equal. rewrite junk_hi_low by lia. rewrite HE.
      rewrite (sz_out n p s Hn ltac:(lia) Hpn eq_refl); auto.
      + apply (rd_field BE 4 dst a n s); auto.
      + rewrite (shift_low_mod (f Shift) shift Fs). rewrite <- Z.add_mod_idemp_r, Hs', Z.add_mod_idemp_r by lia. reflexivity.
    - sil. stp. sil. apply weaken. apply IH; cbnx; [lts|]. repeat split; auto; try tauto; apply Hi. }
  start f r. stp. sil. apply weaken. apply Loop; cbnx. exact Hin.
Qed.

Lemma s32_eq x y : s32 x = s32 y <-> low 32 x = low 32 y.
Proof.
  unfold s32. pose proof (low_range 32 x ltac:(lia)). pose proof (low_range 32 y ltac:(lia)).
  change (2 ^ 32) with 4294967296 in *. change (2 ^ 31) with 2147483648.
  destruct (Z.ltb_spec (low 32 x) 2147483648), (Z.ltb_spec (low 32 y) 2147483648); lia.
Qed.

Lemma sz_cas_sub_fn_atomic n a old new : n = 1 \/ n = 2 -> 0 <= a < 2 ^ 64 -> a mod n = 0 ->
  0 <= old < 2 ^ (8 * n) -> 0 <= new < 2 ^ (8 * n) ->
  atomic_fx BE (sz_cas_sub_fn n a old new) (cas_spec BE a n old new).
Proof.
  intros Hn Ha Hal Hold Hnew. unfold sz_cas_sub_fn.
  destruct (create_sub_word_mask_values A_s390x BE 64 32 n a) as [[dst shift] mask] eqn:E.
  apply sub_word_ok_s390x in E; try lia.
  unfa. destruct E as (Ed & _ & _ & Hin_w & Hs & _).
  pose proof (in_word_range _ _ _ _ _ _ Hin_w) as (Hs0 & Hs1 & Hn0).
  pose proof (Z.mod_pos_bound a 4 ltac:(lia)) as Hp. cbn [field_pos] in *. set (p := a mod 4) in *.
  assert (p + n <= 4) as Hpn by lia.
  set (s := 8 * (4 - n - p)) in *.
  assert (shift mod 32 = (8 * p) mod 32) as Hs'. { rewrite Hs. symmetry. apply Z.mod_small. lia. }
  loop_inv_m 1%nat (fun (m : mem) (f : regs) => (f Dst = dst /\ opnd 64 32 old (f Old) /\ low (8 * n) (f New) = new /\
      opnd 64 32 shift (f Shift) /\ opnd 64 32 (low 32 (- shift)) (f ShiftC)) /\ low 32 (f Tmp2) = rd BE m dst 4) Loop.
  { pose proof Hi as ((Fd & [_ Fo] & Fn & [_ Fs] & [_ Fc]) & Ft).
    assert ((sz_bits n + f Shift) mod 32 = (sz_bits n + 8 * p) mod 32) as S1.
    { rewrite (shift_low_mod (f Shift) shift Fs). rewrite <- Z.add_mod_idemp_r, Hs', Z.add_mod_idemp_r by lia. reflexivity. }
    assert ((- sz_bits n + f ShiftC) mod 32 = (- sz_bits n - 8 * p) mod 32) as S2.
    { rewrite (neg_shift_mod (f ShiftC) shift Fc). rewrite Zminus_mod, Hs', <- Zminus_mod. reflexivity. }
    pose proof (rd4_range m dst Hm0) as HW.
    do 2 (stp; sil). stp; sil. rewrite Ft.
    match goal with |- context [risbg_val (f New) (junk_hi 64 32 (rotl32 (rd BE m dst 4) ?sh) ?j) 32 ?i 0] =>
      pose proof (sz_cas_word n p s Hn ltac:(lia) Hpn eq_refl _ (f New) new _ j sh (- sz_bits n + f ShiftC) HW S1 S2 Fn eq_refl) as [XN XF];
      set (X := risbg_val (f New) (junk_hi 64 32 (rotl32 (rd BE m dst 4) sh) j) 32 i 0) in * end.
    assert (forall jj jj' k, k mod 32 = (sz_bits n + 8 * p) mod 32 ->
      low 32 (junk_hi 64 32 (low (8 * n) (junk_hi 64 32 (rotl32 (rd BE m dst 4) k) jj)) jj') = rd BE m a n) as OUT.
    { intros jj jj' kk Hkk. rewrite junk_hi_low by lia. rewrite junk_hi_low by lia.
      rewrite (sz_out n p s Hn ltac:(lia) Hpn eq_refl) by auto.
      rewrite (rd_field BE 4 dst a n s) by auto. apply low_id. 
      pose proof (rd_range BE m a n Hm0 ltac:(lia)).
      assert (2 ^ (8 * n) <= 2 ^ 32) by (apply Z.pow_le_mono_r; lia). lia. }
    assert (low (8 * n) (rd BE m a n) = rd BE m a n) as RL by (apply rd_low; auto; lia).
    stp; sil. stp; sil. stp.
    match goal with |- context [s32 ?x =? s32 ?y] => set (XO := x); pose proof (s32_eq x y) as SE; pose proof (OUT (o_junk o0) (o_junk o2) (sz_bits n + f Shift) S1) as OO; fold XO in OO, SE end.
    rewrite OO, Fo in SE.
    assert (low (8 * n) XO = rd BE m a n) as OO2. { rewrite <- RL at 1. rewrite <- OO at 1. rewrite low_low by lia. reflexivity. }
    destruct (Z.eqb_spec (s32 XO) (s32 (f Old))) as [HC|HC]; cbn [negb Z.eqb].
    - (* equal: go on to cs *)
      sil. stp; sil. stp. rewrite Fd. change (8 * 4) with 32. br_case HE; cbnx.
      + assert (rd BE (o_mem o6) dst 4 = rd BE m dst 4) as EW by congruence.
        pose proof (rd_field_eq BE 4 dst a n s _ _ Hin_w Ho6 Hm0 EW) as EQ.
        lin_at (rd BE (o_mem o6) a n, true).
        { split; [reflexivity|]. cbn [fst snd]. split; [rewrite EQ; tauto|]. eapply wr_field; eauto.
          eapply field_set_ext; [intros b Hb; apply (junk_hi_bits 64 32); lia|]. rewrite EW. exact XF. }
        stq. silq. stq. silq. stq. silq. done_q. rewrite ipm_extract by lia. rewrite EQ, <- OO2. reflexivity.
      + sil. stp. sil. apply (weaken_in _ _ _ _ _ (o_mem o6)); [in_l|]. apply IH; cbnx; [lts|auto|].
        split; [|rewrite junk_hi_low by lia; apply rd_low; auto; lia].
        repeat split; auto; try apply Hi.
    - destruct (s32 XO <? s32 (f Old)); cbn [negb Z.eqb]; sil; (commit_at m (rd BE m a n, false); [apply cas_fail_spec; tauto|]);
      (stq; silq; stq; silq; done_q; rewrite ipm_extract by lia; rewrite OO2; reflexivity). }
  start f r. destruct Hin as (Fd & Fo & Fn & Fs & Fc). stp. sil.
  apply (weaken_in _ _ _ _ _ (o_mem o)); [in_l|]. apply Loop; cbnx; auto.
  rewrite Fd, Z.add_0_r. split; [repeat split; auto; apply Fn || apply Fo || apply Fs || apply Fc|].
  rewrite junk_hi_low by lia. apply rd_low; auto; lia.
Qed.

(* ---- what the trait implementations do ---- *)
Lemma sz_sizes n : sz_word n || sz_subword n = true -> 0 < n /\ 8 * n <= 64.
Proof. unfold sz_word, sz_subword. intros H. beqs. destruct H; beqs; destruct H; beqs; lia. Qed.
Lemma sz_sub_n n : sz_subword n = true -> n = 1 \/ n = 2.
Proof. unfold sz_subword. intros; beqs; destruct H; beqs; lia. Qed.
Theorem sz_load_atomic c n o a f : sz_load c n o a = Impl f -> atomic_fx BE f (load_spec BE a n).
Proof.
  unfold sz_load. disp.
  - apply sz_sizes in E. apply sz_load_fn_atomic; tauto.
  - beqs. subst n. apply sz_load128_fn_atomic.
Qed.
Theorem sz_store_atomic c n o a v f : sz_store c n o a v = Impl f -> atomic_fx BE f (store_spec BE a n v).
Proof.
  unfold sz_store. disp.
  - apply sz_sizes in E. apply sz_store_fn_atomic; tauto.
  - beqs. subst n. apply sz_store128_fn_atomic.
Qed.
Theorem sz_swap_atomic c n o a v f : 0 <= a < 2 ^ 64 -> a mod n = 0 -> 0 <= v < 2 ^ (8 * n) ->
  sz_swap c n o a v = Impl f -> atomic_fx BE f (swap_spec BE a n v).
Proof.
  intros Ha Hal Hv. unfold sz_swap. disp.
  - destruct (sz_sizes n); [now rewrite E|]. apply sz_swap_fn_atomic; auto.
  - apply sz_sub_n in E0. apply sz_swap_sub_fn_atomic; auto.
  - beqs. subst n. apply sz_swap128_fn_atomic.
Qed.
Theorem sz_cas_atomic c n os of a old new f : 0 <= a < 2 ^ 64 -> a mod n = 0 -> 0 <= old < 2 ^ (8 * n) -> 0 <= new < 2 ^ (8 * n) ->
  sz_cas c n os of a old new = Impl f -> atomic_fx BE f (cas_spec BE a n old new).
Proof.
  intros Ha Hal Ho Hn. unfold sz_cas. disp.
  - destruct (sz_sizes n); [now rewrite E|]. apply sz_cas_fn_atomic; auto.
  - apply sz_sub_n in E0. apply sz_cas_sub_fn_atomic; auto.
  - beqs. subst n. apply sz_cas128_fn_atomic; auto.
Qed.
