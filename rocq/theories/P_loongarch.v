From Verif Require Import Sym Arch_loongarch Fields.

Ltac unfa := unfold sllw, srlw, la_ld, la_st, la_ll, la_sc, la_amswap, la_amswap0.

Lemma la_load_fn_atomic n a t : 0 < n -> 8 * n <= 64 -> atomic_fx LE (la_load_fn n a t) (load_spec LE a n).
Proof.
  intros Hn Hw. unfold la_load_fn. unfa. start f r. go. commit_at (o_mem o) (rd LE (o_mem o) a n).
  { apply load_spec_refl. }
  done_q. f_equal. rewrite Hin, Z.add_0_r. apply rd_sext; auto; lia.
Qed.
Lemma la_store_fn_atomic n a v t : 0 < n -> 8 * n <= 64 -> atomic_fx LE (la_store_fn n a v t) (store_spec LE a n v).
Proof.
  intros Hn Hw. unfold la_store_fn. unfa. start f r. destruct Hin as [Ha Hv].
  destruct t; stp; lin_at tt; try (done_q; reflexivity); unfold store_spec; rewrite Ha, ?Z.add_0_r; eapply wr_opnd; eauto; lia.
Qed.
Lemma la_store_sub_fn_atomic n a v t : 0 < n -> 8 * n <= 64 -> atomic_fx LE (la_store_sub_fn n a v t) (store_spec LE a n v).
Proof.
  intros Hn Hw. destruct t as [x y]. unfold la_store_sub_fn. unfa. start f r. destruct Hin as [Ha Hv].
  go. stp. lin_at tt. { unfold store_spec; rewrite Ha, ?Z.add_0_r; eapply wr_opnd; eauto; lia. }
  goq. done_q. reflexivity.
Qed.
Lemma la_swap_fn_atomic n a v : 0 < n -> 8 * n <= 64 -> atomic_fx LE (la_swap_fn n a v) (swap_spec LE a n v).
Proof.
  intros Hn Hw. unfold la_swap_fn. unfa. start f r. destruct Hin as [Ha Hv].
  stp. lin_at (rd LE (o_mem o) a n).
  { split; [reflexivity|]. rewrite Ha; eapply wr_opnd; eauto; lia. }
  done_q. f_equal. rewrite Ha. apply rd_sext; auto; lia.
Qed.

Lemma la_cas_fn_atomic n a old new t : 0 < n -> 8 * n <= 64 ->
  atomic_fx LE (with_in (la_cas_fn n a old new t) (fun f => sext (8 * n) 64 (f Old) = f Old)) (cas_spec LE a n old new).
Proof.
  intros Hn Hw. unfold la_cas_fn, with_in; cbnx. unfa.
  loop_inv 0%nat (fun f : regs => (f Dst = a /\ opnd 64 (8 * n) old (f Old) /\ opnd 64 (8 * n) new (f New)) /\ sext (8 * n) 64 (f Old) = f Old) Loop.
  { pose proof Hi as ((Fd & [_ Fo] & Fn) & Fs).
    go. stp. rewrite Fd.
    pose proof (rd_range LE (o_mem o0) a n Ho0 ltac:(lia)) as HR.
    pose proof (sx_cmp 64 n (f Old) _ old Hn Hw Fs Fo HR) as CMP.
    br_case H.
    - sil. go. stp. rewrite Fd. sc_case HE.
      + lin_at (rd LE (o_mem o3) a n, true).
        { split; [reflexivity|]. cbn [fst snd]. split; [rewrite HE; apply CMP; auto|]. eapply wr_opnd; eauto; lia. }
        stq. br_case H0; [lia|]. silq. goq. done_q. apply (ret_cas_ok n _ _ true). rewrite HE. apply rd_sext; auto; lia.
      + sil. stp. br_case H0; [|lia]. sil. apply weaken. apply IH; auto; lts.
    - sil. commit_at (o_mem o0) (rd LE (o_mem o0) a n, false).
      { apply cas_fail_spec. rewrite <- CMP. auto. }
      goq. done_q. apply (ret_cas_ok n _ _ false). apply rd_sext; auto; lia. }
  start f r. apply Loop. exact Hin.
Qed.

Lemma la_wf_uw c : la_wf c -> 32 <= la_uw c.
Proof. intros [-> | ->]; lia. Qed.

Lemma la_swap_sub_fn_atomic c n a v : la_wf c -> n = 1 \/ n = 2 ->
  0 <= a < 2 ^ la_uw c -> a mod n = 0 -> 0 <= v < 2 ^ (8 * n) ->
  atomic_fx LE (la_swap_sub_fn c n a v) (swap_spec LE a n v).
Proof.
  intros Hc Hn Ha Hal Hv. unfold la_swap_sub_fn. pose proof (la_wf_uw c Hc) as Hu.
  destruct (create_sub_word_mask_values A_loongarch64 LE (la_uw c) 64 n a) as [[dst shift] mask] eqn:E.
  apply sub_word_ok in E; try lia; [|reflexivity].
  unfa. destruct E as (Ed & _ & _ & Hin_w & Hs & _ & Hm). cbn [SHIFT_MASK negb] in Hm.
  set (s := field_pos LE n a) in *. pose proof (in_word_range _ _ _ _ _ _ Hin_w) as (Hs0 & Hs1 & Hn0).
  set (M := sx_sll 64 mask shift).
  loop_inv 2%nat (fun f : regs => f Dst = dst /\ f Shift = shift /\ f Mask = M /\ exists V, f Val = sx_sll 64 V shift /\ low 32 V = v) Loop.
  { pose proof Hi as (Fd & Fs & Fm & V & Fv & HV).
    go. stp. rewrite Fd. sc_case HE.
    - lin_at (rd LE (o_mem o3) a n).
      { split; [reflexivity|]. eapply wr_field; eauto.
        rewrite Fv, Fm. apply merge_or_field.
        - intros b Hb. rewrite sext_bits by lia. destruct (Z.ltb_spec b (8*4)); [|lia]. rewrite HE. reflexivity.
        - intros b Hb. unfold M. rewrite sx_sll_bits by lia. rewrite Hm, Hs. apply shl_mask_bits; lia.
        - intros b Hb. rewrite sx_sll_bits, Hs by lia. apply (shl_val_bits v V 32 s n); auto; lia. }
      stq. br_case H0; [lia|]. silq. goq. done_q. f_equal. rewrite Fs.
      change (8 * 4) with 32. rewrite sx_srl_field; try lia.
      2:{ change 32 with (8 * 4). apply rd_range; auto; lia. }
      rewrite Hs, <- HE. apply (rd_field LE 4 dst a n s); auto.
    - sil. stp. br_case H0; [|lia]. sil. apply weaken. apply IH; cbnx; [lts|]. eauto 6. }
  start f r. destruct Hin as (Fd & Fs & Fm & _ & Fv2).
  do 2 (stp; sil). apply weaken. apply Loop; cbnx. unfold M. rewrite Fs, Fm. eauto 8.
Qed.

Lemma la_cas_sub_fn_atomic c n a old new t : la_wf c -> n = 1 \/ n = 2 ->
  0 <= a < 2 ^ la_uw c -> a mod n = 0 -> 0 <= old < 2 ^ (8 * n) -> 0 <= new < 2 ^ (8 * n) ->
  atomic_fx LE (la_cas_sub_fn c n a old new t) (cas_spec LE a n old new).
Proof.
  intros Hc Hn Ha Hal Hold Hnew. unfold la_cas_sub_fn. pose proof (la_wf_uw c Hc) as Hu.
  destruct (create_sub_word_mask_values A_loongarch64 LE (la_uw c) 64 n a) as [[dst shift] mask] eqn:E.
  apply sub_word_ok in E; try lia; [|reflexivity].
  unfa. destruct E as (Ed & _ & _ & Hin_w & Hs & _ & Hm). cbn [SHIFT_MASK negb] in Hm.
  set (s := field_pos LE n a) in *. pose proof (in_word_range _ _ _ _ _ _ Hin_w) as (Hs0 & Hs1 & Hn0).
  set (M := sx_sll 64 mask shift).
  loop_inv 3%nat (fun f : regs => f Dst = dst /\ f Shift = shift /\ f Mask = M /\
     (exists O, f Old = sx_sll 64 O shift /\ low 32 O = old) /\ exists V, f New = sx_sll 64 V shift /\ low 32 V = new) Loop.
  { pose proof Hi as (Fd & Fs & Fm & (O & Fo & HO) & V & Fv & HV).
    assert (forall m, wf_mem m -> 0 <= rd LE m dst 4 < 2 ^ 32) as HR
      by (intros; change 32 with (8 * 4); apply rd_range; auto; lia).
    assert (forall m, wf_mem m -> (Z.land (sext 32 64 (rd LE m dst 4)) M = sx_sll 64 O shift <-> rd LE m a n = old)) as CMP.
    { intros m Hm'. rewrite <- (rd_field LE 4 dst a n s m) by auto. apply sx_sub_cmp; auto; lia. }
    assert (forall m, wf_mem m -> low (8 * n) (sx_srl 64 (sext 32 64 (rd LE m dst 4)) shift) = rd LE m a n) as OUT.
    { intros m Hm'. rewrite sx_srl_field by (auto; lia). rewrite Hs. apply rd_field; auto. }
    go. stp. rewrite Fd, Fm, Fo. change (8 * 4) with 32. br_case H.
    - sil. go. stp. rewrite Fd. sc_case HE.
      + apply CMP in H; auto.
        pose proof (rd_field_eq LE 4 dst a n s _ _ Hin_w Ho5 Ho0 HE) as EQ.
        lin_at (rd LE (o_mem o0) a n, true).
        { split; [auto|]. cbn [fst snd]. split; [congruence|]. eapply wr_field; eauto.
          rewrite Fv, Fm. apply merge_or_field.
          - intros b Hb. change (8 * 4) with 32. rewrite sext_bits by lia. destruct (Z.ltb_spec b 32); [|lia]. rewrite HE. reflexivity.
          - intros b Hb. unfold M. rewrite sx_sll_bits by lia. rewrite Hm, Hs. apply shl_mask_bits; lia.
          - intros b Hb. rewrite sx_sll_bits, Hs by lia. apply (shl_val_bits new V 32 s n); auto; lia. }
        stq. br_case H0; [lia|]. silq. goq. done_q. rewrite Fs. apply (ret_cas_ok n _ _ true). auto.
      + sil. stp. br_case H0; [|lia]. sil. apply weaken. apply IH; cbnx; [lts|]. eauto 8.
    - sil. commit_at (o_mem o0) (rd LE (o_mem o0) a n, false).
      { apply cas_fail_spec. rewrite <- CMP by auto. auto. }
      goq. done_q. rewrite Fs. apply (ret_cas_ok n _ _ false). auto. }
  start f r. destruct Hin as (Fd & Fs & Fm & [_ Fo] & [_ Fn]).
  do 3 (stp; sil). apply weaken. apply Loop; cbnx. unfold M. rewrite Fs, Fm. eauto 12.
Qed.

(* ---- what the trait implementations do ---- *)
Lemma la_sizes n : la_word n || la_subword n = true -> 0 < n /\ 8 * n <= 64.
Proof. unfold la_word, la_subword. intros; beqs; lia. Qed.
Theorem la_load_atomic c n o a f : la_load c n o a = Impl f -> atomic_fx LE f (load_spec LE a n).
Proof. unfold la_load. disp. apply la_sizes in E. apply la_load_fn_atomic; tauto. Qed.
Theorem la_store_atomic c n o a v f : la_store c n o a v = Impl f -> atomic_fx LE f (store_spec LE a n v).
Proof.
  unfold la_store, la_word, la_subword. disp; beqs.
  - apply la_store_fn_atomic; lia.
  - apply la_store_sub_fn_atomic; lia.
Qed.
Theorem la_swap_atomic c n o a v f : la_wf c -> 0 <= a < 2 ^ la_uw c -> a mod n = 0 -> 0 <= v < 2 ^ (8 * n) ->
  la_swap c n o a v = Impl f -> atomic_fx LE f (swap_spec LE a n v).
Proof.
  intros Hc Ha Hal Hv. unfold la_swap, la_word, la_subword. disp; beqs.
  - apply la_swap_fn_atomic; lia.
  - apply la_swap_sub_fn_atomic; auto; lia.
Qed.
(* all sizes except 32-bit: no condition on upper register bits *)
Theorem la_cas_atomic c n os of a old new f : la_wf c -> 0 <= a < 2 ^ la_uw c -> a mod n = 0 ->
  0 <= old < 2 ^ (8 * n) -> 0 <= new < 2 ^ (8 * n) -> n <> 4 ->
  la_cas c n os of a old new = Impl f -> atomic_fx LE f (cas_spec LE a n old new).
Proof.
  intros Hc Ha Hal Ho Hn Hx. unfold la_cas, la_word, la_subword. disp; beqs.
  - assert (n = 8) as -> by lia. intros os0 s0 Hw Hp Hi. apply (la_cas_fn_atomic 8 a old new _); try lia; auto.
    split; [exact Hi|]. destruct Hi as (_ & [Hr _] & _). apply sext_full; auto; lia.
  - apply la_cas_sub_fn_atomic; auto; lia.
Qed.
(* 32-bit cells: proved when the register holding `current` is sign-extended *)
Theorem la_cas_atomic_partial c n os of a old new f : la_wf c -> 0 <= a < 2 ^ la_uw c -> a mod n = 0 ->
  0 <= old < 2 ^ (8 * n) -> 0 <= new < 2 ^ (8 * n) ->
  la_cas c n os of a old new = Impl f ->
  atomic_fx LE (if la_word n then with_in f (fun g => sext (8 * n) 64 (g Old) = g Old) else f) (cas_spec LE a n old new).
Proof.
  intros Hc Ha Hal Ho Hn. unfold la_cas, la_word, la_subword. disp; beqs.
  - apply la_cas_fn_atomic; lia.
  - apply la_cas_sub_fn_atomic; auto; lia.
Qed.
(* `ll.w` sign-extends and `bne` compares 64 bits: same counterexample as on riscv64 *)
Theorem la_cas_32_refuted :
  exists c f, la_wf c /\ la_cas c 4 SeqCst SeqCst 0 (2 ^ 31) 0 = Impl f /\ ~ atomic_fn LE f (cas_spec LE 0 4 (2 ^ 31) 0).
Proof.
  exists {| la_uw := 64 |}. eexists. split; [left; reflexivity|]. split; [reflexivity|]. refute_top 11%nat.
Qed.
