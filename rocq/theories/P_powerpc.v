From Verif Require Import Sym Arch_powerpc Fields.

Ltac unfa := unfold mfcr, pp_l, pp_st, larx, stcx, cmp_, bne, slw, srw, or_dot, pp_lq, pp_stq, lqarx, stqcx.

(* ---- condition register (C18) ---- *)
Lemma mfcr_eq j b : test_cr0_eq (mfcr_val j (b2z b)) = b.
Proof.
  unfold test_cr0_eq, mfcr_val.
  pose proof (low_range 29 j ltac:(lia)) as H1.
  assert (Z.testbit (low 29 j + (b2z b + 2 * low 2 (Z.shiftr j 30)) * 2 ^ 29) 29 = b) as T.
  { rewrite concat_bits by (auto; lia). cbn [Z.ltb Z.compare Pos.compare Pos.compare_cont]. change (29 - 29) with 0.
    rewrite Z.bit0_odd, Z.odd_add_mul_2. destruct b; reflexivity. }
  set (x := _ + _) in *. clearbody x. change 0x20000000 with (2 ^ 29).
  destruct (Z.eqb_spec (Z.land x (2 ^ 29)) 0) as [E|E].
  - assert (Z.testbit (Z.land x (2 ^ 29)) 29 = false) as E' by (rewrite E; apply Z.bits_0).
    rewrite Z.land_spec, Z.pow2_bits_true, andb_true_r in E' by lia. cbn. congruence.
  - cbn. destruct b; [reflexivity|]. exfalso. apply E. apply Z.bits_inj'. intros c Hc. rewrite Z.land_spec, Z.bits_0.
    destruct (Z.eq_dec c 29) as [->|]; [rewrite T; reflexivity|]. rewrite Z.pow2_bits_false by lia. apply andb_false_r.
Qed.
Lemma mfcr_one j : test_cr0_eq (mfcr_val j 1) = true. Proof. apply (mfcr_eq j true). Qed.
Lemma mfcr_zero j : test_cr0_eq (mfcr_val j 0) = false. Proof. apply (mfcr_eq j false). Qed.

Lemma pp_load_fn_atomic e n a t : 0 < n -> atomic_fx e (pp_load_fn n a t) (load_spec e a n).
Proof.
  intros Hn. unfold pp_load_fn. destruct t; unfa; start f0 r.
  - stp; sil. stp; sil. commit_at (o_mem o0) (rd e (o_mem o0) a n). { apply load_spec_refl. }
    goq. stq. rewrite Z.eqb_refl. cbn [b2z Z.eqb]. silq. goq. done_q. f_equal. rewrite Hin, Z.add_0_r. apply rd_low; auto; lia.
  - go. commit_at (o_mem o) (rd e (o_mem o) a n). { apply load_spec_refl. }
    done_q. f_equal. rewrite Hin, Z.add_0_r. apply rd_low; auto; lia.
Qed.
Lemma pp_store_fn_atomic c e n a v t : 0 < n -> atomic_fx e (pp_store_fn c n a v t) (store_spec e a n v).
Proof.
  intros Hn. unfold pp_store_fn. unfa. start f r. destruct Hin as [Ha Hv].
  stp. sil. stp. lin_at tt. { unfold store_spec; rewrite Ha, ?Z.add_0_r; eapply wr_opnd; eauto; lia. }
  done_q. reflexivity.
Qed.
Lemma pp_swap_fn_atomic c e n a v t : 0 < n -> atomic_fx e (pp_swap_fn c n a v t) (swap_spec e a n v).
Proof.
  intros Hn. destruct t as [x y]. unfold pp_swap_fn. unfa.
  loop_inv 1%nat (fun f : regs => f Dst = a /\ opnd (pp_w c) (8 * n) v (f Val)) Loop.
  { pose proof Hi as [Fd Fv]. go. stp. rewrite Fd. sc_case HE.
    - lin_at (rd e (o_mem o1) a n). { split; [reflexivity|]. eapply wr_opnd; eauto; lia. }
      stq. silq. goq. done_q. f_equal. rewrite HE. apply rd_low; auto; lia.
    - sil. stp. sil. apply weaken. apply IH; cbnx; auto; lts. }
  start f r. stp. sil. apply weaken. apply Loop. auto.
Qed.
Lemma pp_k_ok n : (n = 1 \/ n = 2 \/ n = 4 \/ n = 8) -> 0 < n /\ 8 * n <= pp_k n.
Proof. intros [->|[->|[->| ->]]]; cbn; lia. Qed.
(* the comparison against the zero-extended operand *)
Lemma pp_cmp c e n a m old x : (n = 1 \/ n = 2 \/ n = 4 \/ n = 8) -> wf_mem m -> opnd (pp_w c) (pp_k n) old x ->
  (low (pp_k n) x =? low (pp_k n) (rd e m a n)) = (rd e m a n =? old).
Proof.
  intros Hn Hm [_ Ho]. destruct (pp_k_ok n Hn) as [H0 Hk]. rewrite Ho, (low_id (pp_k n) (rd e m a n)); [apply Z.eqb_sym|].
  pose proof (rd_range e m a n Hm ltac:(lia)).
  assert (2 ^ (8 * n) <= 2 ^ pp_k n) by (apply Z.pow_le_mono_r; lia). lia.
Qed.
Lemma pp_cas_fn_atomic c e n a old new t : (n = 1 \/ n = 2 \/ n = 4 \/ n = 8) ->
  atomic_fx e (pp_cas_fn c n a old new t) (cas_spec e a n old new).
Proof.
  intros Hn. destruct t as [[x y] z]. unfold pp_cas_fn. unfa. destruct (pp_k_ok n Hn) as [H0 _].
  loop_inv 1%nat (fun f : regs => f Dst = a /\ opnd (pp_w c) (pp_k n) old (f Old) /\ opnd (pp_w c) (8 * n) new (f New)) Loop.
  { pose proof Hi as (Fd & Fo & Fn).
    do 3 (stp; sil). rewrite Fd. rewrite (pp_cmp c e n a (o_mem o0) old) by auto.
    stp. destruct (Z.eqb_spec (rd e (o_mem o0) a n) old) as [H|H]; cbn [b2z Z.eqb].
    - sil. stp. rewrite Fd. sc_case HE.
      + lin_at (rd e (o_mem o3) a n, true).
        { split; [reflexivity|]. cbn [fst snd]. split; [congruence|]. eapply wr_opnd; eauto; lia. }
        stq. silq. goq. done_q. rewrite mfcr_one, HE. f_equal. f_equal. apply rd_low; auto; lia.
      + sil. stp. sil. apply weaken. apply IH; cbnx; auto; lts.
    - sil. commit_at (o_mem o0) (rd e (o_mem o0) a n, false). { apply cas_fail_spec. auto. }
      goq. done_q. rewrite mfcr_zero. f_equal. f_equal. apply rd_low; auto; lia. }
  start f r. stp. sil. apply weaken. apply Loop. exact Hin.
Qed.
Lemma pp_casw_fn_atomic c e n a old new t : (n = 1 \/ n = 2 \/ n = 4 \/ n = 8) ->
  atomic_fx e (pp_casw_fn c n a old new t) (casw_spec e a n old new).
Proof.
  intros Hn. destruct t as [[x y] z]. unfold pp_casw_fn. unfa. destruct (pp_k_ok n Hn) as [H0 _].
  start f r. destruct Hin as (Fd & Fo & Fn).
  do 3 (stp; sil). rewrite Fd. rewrite (pp_cmp c e n a (o_mem o0) old) by auto.
  stp. destruct (Z.eqb_spec (rd e (o_mem o0) a n) old) as [H|H]; cbn [b2z Z.eqb].
  - sil. stp. rewrite Fd. sc_case HE.
    + lin_at (rd e (o_mem o3) a n, true).
      { split; [reflexivity|]. cbn [fst snd]. split; [congruence|]. eapply wr_opnd; eauto; lia. }
      goq. done_q. rewrite mfcr_one, HE. f_equal. f_equal. apply rd_low; auto; lia.
    + sil. commit_at (o_mem o0) (rd e (o_mem o0) a n, false). { apply casw_fail_spec. }
      goq. done_q. rewrite mfcr_zero. f_equal. f_equal. apply rd_low; auto; lia.
  - sil. commit_at (o_mem o0) (rd e (o_mem o0) a n, false). { apply casw_fail_spec. }
    goq. done_q. rewrite mfcr_zero. f_equal. f_equal. apply rd_low; auto; lia.
Qed.

(* ---- sub-word ---- *)
Lemma slw_bits x s b : 0 <= s < 32 -> 0 <= b < 32 -> Z.testbit (slw_val x s) b = Z.testbit (Z.shiftl x s) b.
Proof.
  intros Hs Hb. unfold slw_val. rewrite (low_id 6 s) by (change (2 ^ 6) with 64; lia). destruct (Z.ltb_spec s 32); [|lia].
  rewrite low_bits by lia. destruct (Z.ltb_spec b 32); [reflexivity|lia].
Qed.
Lemma srw_field W s n : 0 <= s < 32 -> 0 <= W < 2 ^ 32 -> low (8 * n) (srw_val W s) = low (8 * n) (Z.shiftr W s).
Proof.
  intros Hs HW. unfold srw_val. rewrite (low_id 6 s) by (change (2 ^ 6) with 64; lia). destruct (Z.ltb_spec s 32); [|lia].
  rewrite (low_id 32 W) by auto. reflexivity.
Qed.
Lemma pp_arch_s c : is_s390x (pp_arch c) = false.
Proof. unfold pp_arch. destruct (pp_w c =? 32); reflexivity. Qed.
Lemma pp_arch_m c : SHIFT_MASK (pp_arch c) = true.
Proof. unfold pp_arch. destruct (pp_w c =? 32); reflexivity. Qed.
Lemma rd4_range e m a : wf_mem m -> 0 <= rd e m a 4 < 2 ^ 32.
Proof. intros. change 32 with (8 * 4). apply rd_range; auto; lia. Qed.

Section Sub.
  Variables (e : endian) (n a dst s : Z).
  Hypothesis (Hin : in_word e 4 dst a n s).
  Let M := Z.shiftl (2 ^ (8 * n) - 1) s.
  Lemma pp_sub_cmp O old m : wf_mem m -> low 32 O = old -> 0 <= old < 2 ^ (8 * n) ->
    (low 32 (Z.land (rd e m dst 4) M) = low 32 (slw_val O s) <-> rd e m a n = old).
  Proof using Hin.
    intros Hm HO Hold. pose proof (in_word_range _ _ _ _ _ _ Hin) as (Hs0 & Hs1 & Hn0).
    rewrite <- (rd_field e 4 dst a n s m) by auto. change 32 with (8 * 4) at 1 2. apply field_cmp; try lia.
    - intros b Hb. unfold M. rewrite Z.land_spec, shl_mask_bits by lia. reflexivity.
    - intros b Hb. rewrite slw_bits by lia. apply (shl_val_bits old O 32 s n); auto; lia.
  Qed.
  Lemma pp_sub_out m : wf_mem m -> low (8 * n) (srw_val (rd e m dst 4) s) = rd e m a n.
  Proof using Hin.
    intros Hm. pose proof (in_word_range _ _ _ _ _ _ Hin) as (Hs0 & Hs1 & Hn0).
    rewrite srw_field by (try apply rd4_range; auto; lia). apply (rd_field e 4 dst a n s); auto.
  Qed.
  Lemma pp_sub_merge V v m : wf_mem m -> low 32 V = v -> 0 <= v < 2 ^ (8 * n) ->
    field_set (Z.lor (Z.ldiff (rd e m dst 4) M) (slw_val V s)) (rd e m dst 4) s n v 4.
  Proof using Hin.
    intros Hm HV Hv. pose proof (in_word_range _ _ _ _ _ _ Hin) as (Hs0 & Hs1 & Hn0).
    apply merge_or_field.
    - reflexivity.
    - intros b Hb. apply shl_mask_bits; lia.
    - intros b Hb. rewrite slw_bits by lia. apply (shl_val_bits v V 32 s n); auto; lia.
  Qed.
End Sub.
Ltac subw c E := 
  apply sub_word_ok in E; try (destruct c; lia); [|unfold pp_wf in *; lia|unfold pp_wf in *; lia|apply pp_arch_s];
  destruct E as (Ed & _ & _ & Hin_w & _ & _ & Hm); rewrite pp_arch_m in Hm; destruct Hm as [Hs Hm];
  specialize (Hm ltac:(unfold pp_wf in *; lia)).

Lemma pp_swap_sub_fn_atomic c n a v t : pp_wf c -> n = 1 \/ n = 2 -> 0 <= a < 2 ^ pp_w c -> a mod n = 0 -> 0 <= v < 2 ^ (8 * n) ->
  atomic_fx (pp_e c) (pp_swap_sub_fn c n a v t) (swap_spec (pp_e c) a n v).
Proof.
  intros Hc Hn Ha Hal Hv. destruct t as [acq_ rel_]. unfold pp_swap_sub_fn.
  destruct (create_sub_word_mask_values (pp_arch c) (pp_e c) (pp_w c) (pp_w c) n a) as [[dst shift] mask] eqn:E.
  subw c E. unfa. set (s := field_pos (pp_e c) n a) in *. set (e := pp_e c) in *.
  loop_inv 2%nat (fun f : regs => f Dst = dst /\ f Shift = shift /\ f Mask = mask /\ exists V, f Val = slw_val V s /\ low 32 V = v) Loop.
  { pose proof Hi as (Fd & Fs & Fm & V & Fv & HV).
    do 4 (stp; sil). stp. rewrite Fd. sc_case HE.
    - lin_at (rd e (o_mem o3) a n).
      { split; [reflexivity|]. eapply wr_field; eauto.
        rewrite Fv, Fm, Hm, Z.lor_comm, <- HE. apply (pp_sub_merge e n a dst s Hin_w); auto. }
      stq. silq. goq. done_q. f_equal. rewrite Fs, Hs, <- HE. apply pp_sub_out; auto.
    - sil. stp. sil. apply weaken. apply IH; cbnx; [lts|]. eauto 8. }
  start f r. destruct Hin as (Fd & Fs & Fm & _ & Fv2).
  do 2 (stp; sil). apply weaken. apply Loop; cbnx. rewrite Fs, Hs. rewrite Hs in Fs. eauto 8.
Qed.
Lemma pp_cas_sub_fn_atomic c n a old new t : pp_wf c -> n = 1 \/ n = 2 -> 0 <= a < 2 ^ pp_w c -> a mod n = 0 ->
  0 <= old < 2 ^ (8 * n) -> 0 <= new < 2 ^ (8 * n) ->
  atomic_fx (pp_e c) (pp_cas_sub_fn c n a old new t) (cas_spec (pp_e c) a n old new).
Proof.
  intros Hc Hn Ha Hal Hold Hnew. destruct t as [[al_ su_] rel_]. unfold pp_cas_sub_fn.
  destruct (create_sub_word_mask_values (pp_arch c) (pp_e c) (pp_w c) (pp_w c) n a) as [[dst shift] mask] eqn:E.
  subw c E. unfa. set (s := field_pos (pp_e c) n a) in *. set (e := pp_e c) in *.
  loop_inv 3%nat (fun f : regs => f Dst = dst /\ f Shift = shift /\ f Mask = mask /\
     (exists O, f Old = slw_val O s /\ low 32 O = old) /\ exists V, f New = slw_val V s /\ low 32 V = new) Loop.
  { pose proof Hi as (Fd & Fs & Fm & (O & Fo & HO) & V & Fv & HV).
    do 4 (stp; sil). rewrite Fd, Fm, Hm, Fo. pose proof (pp_sub_cmp e n a dst s Hin_w O old (o_mem o0) Ho0 HO Hold) as CMP.
    stp. match type of CMP with (?x = ?y <-> _) => destruct (Z.eqb_spec x y) as [H|H] end; cbn [b2z Z.eqb].
    - sil. do 2 (stp; sil). stp. rewrite Fd. sc_case HE.
      + apply CMP in H. pose proof (rd_field_eq e 4 dst a n s _ _ Hin_w Ho6 Ho0 HE) as EQ.
        lin_at (rd e (o_mem o0) a n, true).
        { split; [auto|]. cbn [fst snd]. split; [congruence|]. eapply wr_field; eauto.
          rewrite Fv, Fm, Hm, HE. apply (pp_sub_merge e n a dst s Hin_w); auto. }
        stq. silq. goq. done_q. rewrite mfcr_one, Fs, Hs, pp_sub_out with (a := a) (n := n); auto.
      + sil. stp. sil. apply weaken. apply IH; cbnx; [lts|]. eauto 8.
    - sil. commit_at (o_mem o0) (rd e (o_mem o0) a n, false). { apply cas_fail_spec. tauto. }
      goq. done_q. rewrite mfcr_zero, Fs, Hs, pp_sub_out with (a := a) (n := n); auto. }
  start f r. destruct Hin as (Fd & Fs & Fm & [_ Fo] & [_ Fn]).
  do 3 (stp; sil). apply weaken. apply Loop; cbnx. rewrite Fs, Hs. rewrite Hs in Fs. eauto 12.
Qed.
Lemma pp_casw_sub_fn_atomic c n a old new t : pp_wf c -> n = 1 \/ n = 2 -> 0 <= a < 2 ^ pp_w c -> a mod n = 0 ->
  0 <= old < 2 ^ (8 * n) -> 0 <= new < 2 ^ (8 * n) ->
  atomic_fx (pp_e c) (pp_casw_sub_fn c n a old new t) (casw_spec (pp_e c) a n old new).
Proof.
  intros Hc Hn Ha Hal Hold Hnew. destruct t as [[al_ su_] rel_]. unfold pp_casw_sub_fn.
  destruct (create_sub_word_mask_values (pp_arch c) (pp_e c) (pp_w c) (pp_w c) n a) as [[dst shift] mask] eqn:E.
  subw c E. unfa. set (s := field_pos (pp_e c) n a) in *. set (e := pp_e c) in *.
  start f r. destruct Hin as (Fd & Fs & Fm & [_ Fo] & [_ Fn]).
  do 6 (stp; sil). rewrite Fd, Fm, Hm, Fs, Hs. pose proof (pp_sub_cmp e n a dst s Hin_w (f Old) old (o_mem o2) Ho2 Fo Hold) as CMP.
  stp. match type of CMP with (?x = ?y <-> _) => destruct (Z.eqb_spec x y) as [H|H] end; cbn [b2z Z.eqb].
  - sil. do 2 (stp; sil). stp. rewrite Fd. sc_case HE.
    + apply CMP in H. pose proof (rd_field_eq e 4 dst a n s _ _ Hin_w Ho8 Ho2 HE) as EQ.
      lin_at (rd e (o_mem o2) a n, true).
      { split; [auto|]. cbn [fst snd]. split; [congruence|]. eapply wr_field; eauto.
        rewrite Fm, Hm, HE. apply (pp_sub_merge e n a dst s Hin_w); auto. }
      goq. done_q. rewrite mfcr_one, ?Fs, ?Hs, pp_sub_out with (a := a) (n := n); auto.
    + sil. commit_at (o_mem o2) (rd e (o_mem o2) a n, false). { apply casw_fail_spec. }
      goq. done_q. rewrite mfcr_zero, ?Fs, ?Hs, pp_sub_out with (a := a) (n := n); auto.
  - sil. commit_at (o_mem o2) (rd e (o_mem o2) a n, false). { apply casw_fail_spec. }
    goq. done_q. rewrite mfcr_zero, ?Fs, ?Hs, pp_sub_out with (a := a) (n := n); auto.
Qed.

(* ---- 128 bits ---- *)
Lemma hfs e : hi_first_sig A_powerpc64 e = true. Proof. destruct e; reflexivity. Qed.
Ltac pr := unfold pair_join, pair_hi, pair_lo; rewrite ?hfs.
Lemma pp_load128_fn_atomic c a t : atomic_fx (pp_e c) (pp_load128_fn c a t) (load_spec (pp_e c) a 16).
Proof.
  unfold pp_load128_fn. set (e := pp_e c). destruct t; unfa; start f0 r.
  - stp; sil. stp; sil. commit_at (o_mem o0) (rd e (o_mem o0) a 16). { apply load_spec_refl. }
    stq; silq. rewrite Z.eqb_refl. cbn [b2z]. stq; silq. goq. done_q. apply some_eq. rewrite Hin. pr. apply join_low_shiftr; lia.
  - stp; sil. commit_at (o_mem o) (rd e (o_mem o) a 16). { apply load_spec_refl. }
    done_q. apply some_eq. rewrite Hin. pr. apply join_low_shiftr; lia.
Qed.
Lemma pp_store128_fn_atomic c a v t : atomic_fx (pp_e c) (pp_store128_fn c a v t) (store_spec (pp_e c) a 16 v).
Proof.
  unfold pp_store128_fn. unfa. start f r. destruct Hin as (Fd & F0 & F1). stp; sil.
  stp. lin_at tt. { unfold store_spec. rewrite Fd, F0, F1. pr. rewrite low_low by lia. rewrite join_low_shiftr by lia. apply meq_refl. }
  done_q. reflexivity.
Qed.
(* the two doublewords read by lqarx / written by stqcx. are the 16-byte value *)
Lemma pp_rd16 e m a : wf_mem m ->
  pair_join A_powerpc64 e 64 (match e with LE => rd e m a 8 | BE => rd e m (a + 8) 8 end)
                             (match e with LE => rd e m (a + 8) 8 | BE => rd e m a 8 end) = rd e m a 16.
Proof. intros Hm. pr. change 16 with (2 * 8). rewrite rd_pair by (auto; lia). destruct e; reflexivity. Qed.
Lemma pp_wr16 e m a v :
  meq (wr e (wr e m a 8 (match e with LE => low 64 v | BE => Z.shiftr v 64 end)) (a + 8) 8 (match e with LE => Z.shiftr v 64 | BE => low 64 v end))
      (wr e m a 16 v).
Proof.
  eapply meq_trans; [apply wr_pair; lia|]. change (2 * 8) with 16. change (8 * 8) with 64.
  destruct e; rewrite ?low_low by lia; rewrite join_low_shiftr by lia; apply meq_refl.
Qed.
Lemma rd16_eq e m m' a : wf_mem m -> wf_mem m' -> rd e m a 8 = rd e m' a 8 -> rd e m (a + 8) 8 = rd e m' (a + 8) 8 ->
  rd e m a 16 = rd e m' a 16.
Proof. intros H H' E1 E2. change 16 with (2 * 8). rewrite !rd_pair by (auto; lia). rewrite E1, E2. reflexivity. Qed.
Lemma rd16_inv e m m' a : wf_mem m -> wf_mem m' -> rd e m a 16 = rd e m' a 16 ->
  rd e m a 8 = rd e m' a 8 /\ rd e m (a + 8) 8 = rd e m' (a + 8) 8.
Proof.
  intros H H' E. pose proof (rd_inj e m m' a 16 H H' ltac:(lia) E) as I. split; apply rd_ext; intros i Hi.
  - apply I; lia.
  - replace (a + 8 + i) with (a + (8 + i)) by lia. apply I; lia.
Qed.
Ltac scp_case HE :=
  rewrite ?scp_may_hit;
  match goal with |- context [if ?b && ((?x =? ?y) && (?z =? ?w)) then _ else _] =>
    let Ok := fresh "Ok" in let H1 := fresh HE "1" in let H2 := fresh HE "2" in
    destruct (b && ((x =? y) && (z =? w))) eqn:Ok;
    [apply andb_true_iff in Ok; destruct Ok as [_ Ok]; apply andb_true_iff in Ok; destruct Ok as [H1 H2];
     apply Z.eqb_eq in H1; apply Z.eqb_eq in H2 | clear Ok] end.

Lemma pp_swap128_fn_atomic c a v t : atomic_fx (pp_e c) (pp_swap128_fn c a v t) (swap_spec (pp_e c) a 16 v).
Proof.
  destruct t as [x y]. unfold pp_swap128_fn. unfa. remember (pp_e c) as e eqn:He. clear He.
  pose proof (pp_wr16 e) as W. pose proof (pp_rd16 e) as RD.
  destruct e;
  ( loop_inv 1%nat (fun f : regs => f Dst = a /\ f AR6 = pair_hi A_powerpc64 LE 64 v /\ f AR7 = pair_lo A_powerpc64 LE 64 v) Loop;
    [ pose proof Hi as (Fd & F6 & F7); do 2 (stp; sil); stp; rewrite Fd; scp_case HE;
      [ match goal with |- context [wr ?e (wr _ (o_mem ?o) _ _ _) _ _ _] => lin_at (rd e (o_mem o) a 16) end;
        [ split; [reflexivity|]; rewrite F6, F7; apply W
        | stq; silq; goq; done_q; apply some_eq; rewrite <- HE1, <- HE2; apply RD; auto ]
      | sil; stp; sil; apply weaken; apply IH; cbnx; auto; lts ]
    | start f r; stp; sil; apply weaken; apply Loop; exact Hin ]).
Qed.

Lemma lor_xor_zero p q r s : (Z.lor (Z.lxor p q) (Z.lxor r s) =? 0) = (p =? q) && (r =? s).
Proof.
  destruct (Z.eqb_spec (Z.lor (Z.lxor p q) (Z.lxor r s)) 0) as [E|E].
  - apply Z.lor_eq_0_iff in E. destruct E as [E1 E2]. apply Z.lxor_eq in E1, E2. subst. now rewrite !Z.eqb_refl.
  - destruct (Z.eqb_spec p q) as [->|]; cbn [andb]; [|reflexivity]. destruct (Z.eqb_spec r s) as [->|]; [|reflexivity].
    exfalso. apply E. rewrite !Z.lxor_nilpotent. reflexivity.
Qed.
Lemma pp_cmp16 e m a old : wf_mem m ->
  (match e with LE => rd e m a 8 | BE => rd e m (a + 8) 8 end =? low 64 old) &&
  (match e with LE => rd e m (a + 8) 8 | BE => rd e m a 8 end =? Z.shiftr old 64) = (rd e m a 16 =? old).
Proof.
  intros Hm. rewrite <- (pp_rd16 e m a Hm). pr.
  set (l := match e with LE => rd e m a 8 | BE => rd e m (a + 8) 8 end).
  set (h := match e with LE => rd e m (a + 8) 8 | BE => rd e m a 8 end).
  assert (0 <= l < 2 ^ 64) as Hl by (subst l; change 64 with (8 * 8); destruct e; apply rd_range; auto; lia).
  destruct (split_join 64 l h ltac:(lia) Hl) as [S1 S2].
  destruct (Z.eqb_spec (l + h * 2 ^ 64) old) as [<-|N].
  - rewrite S1, S2, !Z.eqb_refl. reflexivity.
  - destruct (Z.eqb_spec l (low 64 old)) as [E1|]; cbn [andb]; [|reflexivity]. destruct (Z.eqb_spec h (Z.shiftr old 64)) as [E2|]; [|reflexivity].
    exfalso. apply N. rewrite E1, E2. apply join_low_shiftr; lia.
Qed.

Lemma pp_cas128_fn_atomic c a old new t : atomic_fx (pp_e c) (pp_cas128_fn c a old new t) (cas_spec (pp_e c) a 16 old new).
Proof.
  destruct t as [[x y] z]. unfold pp_cas128_fn. unfa. remember (pp_e c) as e eqn:He. clear He.
  pose proof (pp_wr16 e) as W. pose proof (pp_rd16 e) as RD. pose proof (pp_cmp16 e) as CMP.
  destruct e;
  ( loop_inv 1%nat (fun f : regs => f Dst = a /\ f OldHi = pair_hi A_powerpc64 LE 64 old /\ f Old = pair_lo A_powerpc64 LE 64 old /\
         f AR4 = pair_hi A_powerpc64 LE 64 new /\ f AR5 = pair_lo A_powerpc64 LE 64 new) Loop;
    [ pose proof Hi as (Fd & Foh & Fo & F4 & F5); do 5 (stp; sil); rewrite Fd, Foh, Fo, lor_xor_zero;
      unfold pair_hi, pair_lo; rewrite !hfs; stp; rewrite CMP by auto;
      match goal with |- context [rd ?e ?mm a 16 =? old] => destruct (Z.eqb_spec (rd e mm a 16) old) as [H|H] end; cbn [b2z Z.eqb];
      [ sil; stp; rewrite Fd; scp_case HE;
        [ match goal with |- context [wr ?e (wr _ (o_mem ?o) _ _ _) _ _ _] =>
            assert (rd e (o_mem o) a 16 = rd e (o_mem o0) a 16) as EQ by (apply rd16_eq; assumption);
            lin_at (rd e (o_mem o) a 16, true) end;
          [ split; [reflexivity|]; cbn [fst snd]; split; [congruence|]; rewrite F4, F5; apply W
          | stq; silq; goq; done_q; rewrite mfcr_one, EQ; apply some_pair; apply RD; auto ]
        | sil; stp; sil; apply weaken; apply IH; cbnx; auto; lts ]
      | sil; match goal with H : rd ?e (o_mem ?oo) a 16 <> old |- _ => commit_at (o_mem oo) (rd e (o_mem oo) a 16, false) end;
        [apply cas_fail_spec; auto|]; goq; done_q; rewrite mfcr_zero; apply some_pair; apply RD; auto ]
    | start f r; stp; sil; apply weaken; apply Loop; exact Hin ]).
Qed.
Lemma pp_casw128_fn_atomic c a old new t : atomic_fx (pp_e c) (pp_casw128_fn c a old new t) (casw_spec (pp_e c) a 16 old new).
Proof.
  destruct t as [[x y] z]. unfold pp_casw128_fn. unfa. remember (pp_e c) as e eqn:He. clear He.
  pose proof (pp_wr16 e) as W. pose proof (pp_rd16 e) as RD. pose proof (pp_cmp16 e) as CMP.
  destruct e; start f r; destruct Hin as (Fd & Foh & Fo & F4 & F5);
  ( do 5 (stp; sil); rewrite Fd, Foh, Fo, lor_xor_zero;
      unfold pair_hi, pair_lo; rewrite !hfs; stp; rewrite CMP by auto;
      match goal with |- context [rd ?e ?mm a 16 =? old] => destruct (Z.eqb_spec (rd e mm a 16) old) as [H|H] end; cbn [b2z Z.eqb];
      [ sil; stp; rewrite Fd; scp_case HE;
        [ match goal with |- context [wr ?e (wr _ (o_mem ?o) _ _ _) _ _ _] =>
            assert (rd e (o_mem o) a 16 = rd e (o_mem o0) a 16) as EQ by (apply rd16_eq; assumption);
            lin_at (rd e (o_mem o) a 16, true) end;
          [ split; [reflexivity|]; cbn [fst snd]; split; [congruence|]; rewrite F4, F5; apply W
          | goq; done_q; rewrite mfcr_one, EQ; apply some_pair; apply RD; auto ]
        | sil; match goal with H : rd ?e (o_mem ?oo) a 16 = old |- _ => commit_at (o_mem oo) (rd e (o_mem oo) a 16, false) end;
          [apply casw_fail_spec; auto|]; goq; done_q; rewrite mfcr_zero; apply some_pair; apply RD; auto ]
      | sil; match goal with H : rd ?e (o_mem ?oo) a 16 <> old |- _ => commit_at (o_mem oo) (rd e (o_mem oo) a 16, false) end;
        [apply casw_fail_spec; auto|]; goq; done_q; rewrite mfcr_zero; apply some_pair; apply RD; auto ]).
Qed.

(* ---- what the trait implementations do ---- *)
Lemma pp_sizes c n : pp_word c n || pp_subword n = true -> n = 1 \/ n = 2 \/ n = 4 \/ n = 8.
Proof. unfold pp_word, pp_subword. intros H. beqs. destruct H as [H|H]; beqs; destruct H as [H|H]; beqs; try lia; destruct H; beqs; lia. Qed.
Lemma pp_full_sizes c n : pp_full c n = true -> n = 1 \/ n = 2 \/ n = 4 \/ n = 8.
Proof.
  unfold pp_full. intros H. apply (pp_sizes c). apply orb_true_iff. apply orb_true_iff in H. destruct H as [H|H]; auto.
  apply andb_true_iff in H. tauto.
Qed.
Lemma pp_sub_n n : pp_subword n = true -> n = 1 \/ n = 2.
Proof. unfold pp_subword. intros; beqs; destruct H; beqs; lia. Qed.
Lemma pp_wide_n c n : pp_wide c n = true -> n = 16.
Proof. unfold pp_wide. intros. beqs. destruct H as [H _]. beqs. destruct H; beqs; lia. Qed.
Theorem pp_load_atomic c n o a f : pp_load c n o a = Impl f -> atomic_fx (pp_e c) f (load_spec (pp_e c) a n).
Proof.
  unfold pp_load. disp.
  - apply pp_sizes in E. apply pp_load_fn_atomic; lia.
  - apply pp_wide_n in E0. subst n. apply pp_load128_fn_atomic.
Qed.
Theorem pp_store_atomic c n o a v f : pp_store c n o a v = Impl f -> atomic_fx (pp_e c) f (store_spec (pp_e c) a n v).
Proof.
  unfold pp_store. disp.
  - apply pp_sizes in E. apply pp_store_fn_atomic; lia.
  - apply pp_wide_n in E0. subst n. apply pp_store128_fn_atomic.
Qed.
Theorem pp_swap_atomic c n o a v f : pp_wf c -> 0 <= a < 2 ^ pp_w c -> a mod n = 0 -> 0 <= v < 2 ^ (8 * n) ->
  pp_swap c n o a v = Impl f -> atomic_fx (pp_e c) f (swap_spec (pp_e c) a n v).
Proof.
  intros Hc Ha Hal Hv. unfold pp_swap. disp.
  - apply pp_full_sizes in E. apply pp_swap_fn_atomic; lia.
  - apply pp_sub_n in E0. apply pp_swap_sub_fn_atomic; auto.
  - apply pp_wide_n in E1. subst n. apply pp_swap128_fn_atomic.
Qed.
Theorem pp_cas_atomic c n os of a old new f : pp_wf c -> 0 <= a < 2 ^ pp_w c -> a mod n = 0 ->
  0 <= old < 2 ^ (8 * n) -> 0 <= new < 2 ^ (8 * n) ->
  pp_cas c n os of a old new = Impl f -> atomic_fx (pp_e c) f (cas_spec (pp_e c) a n old new).
Proof.
  intros Hc Ha Hal Ho Hn. unfold pp_cas. disp.
  - apply pp_full_sizes in E. apply pp_cas_fn_atomic; auto.
  - apply pp_sub_n in E0. apply pp_cas_sub_fn_atomic; auto.
  - apply pp_wide_n in E1. subst n. apply pp_cas128_fn_atomic.
Qed.
Theorem pp_casw_atomic c n os of a old new f : pp_wf c -> 0 <= a < 2 ^ pp_w c -> a mod n = 0 ->
  0 <= old < 2 ^ (8 * n) -> 0 <= new < 2 ^ (8 * n) ->
  pp_casw c n os of a old new = Impl f -> atomic_fx (pp_e c) f (casw_spec (pp_e c) a n old new).
Proof.
  intros Hc Ha Hal Ho Hn. unfold pp_casw. disp.
  - apply pp_full_sizes in E. apply pp_casw_fn_atomic; auto.
  - apply pp_sub_n in E0. apply pp_casw_sub_fn_atomic; auto.
  - apply pp_wide_n in E1. subst n. apply pp_casw128_fn_atomic.
Qed.
