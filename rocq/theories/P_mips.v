From Verif Require Import Sym Arch_mips Fields.

Ltac unfa := unfold sllw, srlv, mi_l, mi_s, mi_ll, mi_sc.
Lemma mi_wf_w c : mi_wf c -> 32 <= mi_w c /\ 32 <= mi_uw c.
Proof. intros [[-> ->]|[-> [->| ->]]]; lia. Qed.
Lemma mi_arch_s c : is_s390x (mi_arch c) = false.
Proof. unfold mi_arch. destruct (mi_w c =? 32), (mi_r6 c); reflexivity. Qed.
Lemma mi_arch_m c : SHIFT_MASK (mi_arch c) = false.
Proof. unfold mi_arch. destruct (mi_w c =? 32), (mi_r6 c); reflexivity. Qed.
Lemma mi_srl_ok w j x sh : 32 <= w -> mi_srl w j (sext 32 w x) sh = sx_srl w (sext 32 w x) sh.
Proof. intros. unfold mi_srl. rewrite sext_idem by lia. rewrite Z.eqb_refl. reflexivity. Qed.

Lemma mi_load_fn_atomic c n a t : 0 < n -> 8 * n <= mi_w c -> atomic_fx (mi_e c) (mi_load_fn c n a t) (load_spec (mi_e c) a n).
Proof.
  intros Hn Hw. unfold mi_load_fn. unfa. start f r. go. commit_at (o_mem o) (rd (mi_e c) (o_mem o) a n).
  { apply load_spec_refl. }
  done_q. f_equal. rewrite Hin, Z.add_0_r. apply rd_sext; auto; lia.
Qed.
Lemma mi_store_fn_atomic c n a v t : 0 < n -> atomic_fx (mi_e c) (mi_store_fn c n a v t) (store_spec (mi_e c) a n v).
Proof.
  intros Hn. destruct t as [x y]. unfold mi_store_fn. unfa. start f r. destruct Hin as [Ha Hv].
  go. stp. lin_at tt. { unfold store_spec; rewrite Ha, ?Z.add_0_r; eapply wr_opnd; eauto; lia. }
  goq. done_q. reflexivity.
Qed.
Lemma mi_swap_fn_atomic c n a v t : 0 < n -> 8 * n <= mi_w c -> atomic_fx (mi_e c) (mi_swap_fn c n a v t) (swap_spec (mi_e c) a n v).
Proof.
  intros Hn Hw. destruct t as [x y]. unfold mi_swap_fn. unfa.
  loop_inv 1%nat (fun f : regs => f Dst = a /\ opnd (mi_w c) (8 * n) v (f Val)) Loop.
  { pose proof Hi as [Fd Fv]. go. stp. rewrite Fd. sc_case HE.
    - lin_at (rd (mi_e c) (o_mem o2) a n). { split; [reflexivity|]. eapply wr_opnd; eauto; lia. }
      stq. br_case H; [lia|]. silq. goq. done_q. f_equal. rewrite HE. apply rd_sext; auto; lia.
    - sil. stp. br_case H; [|lia]. sil. apply weaken. apply IH; cbnx; auto; lts. }
  start f r. stp. sil. apply weaken. apply Loop. auto.
Qed.
Lemma mi_cas_fn_atomic c n a old new t : 0 < n -> 8 * n <= mi_w c ->
  atomic_fx (mi_e c) (with_in (mi_cas_fn c n a old new t) (fun f => sext (8 * n) (mi_w c) (f Old) = f Old)) (cas_spec (mi_e c) a n old new).
Proof.
  intros Hn Hw. destruct t as [x y]. unfold mi_cas_fn, with_in; cbnx. unfa.
  loop_inv 1%nat (fun f : regs => (f Dst = a /\ opnd (mi_w c) (8 * n) old (f Old) /\ opnd (mi_w c) (8 * n) new (f New)) /\ sext (8 * n) (mi_w c) (f Old) = f Old) Loop.
  { pose proof Hi as ((Fd & [_ Fo] & Fn) & Fs).
    go. stp. rewrite Fd.
    pose proof (rd_range (mi_e c) (o_mem o0) a n Ho0 ltac:(lia)) as HR.
    pose proof (sx_cmp (mi_w c) n (f Old) _ old Hn Hw Fs Fo HR) as CMP.
    br_case H.
    - sil. go. stp. rewrite Fd. sc_case HE.
      + lin_at (rd (mi_e c) (o_mem o3) a n, true).
        { split; [reflexivity|]. cbn [fst snd]. split; [rewrite HE; apply CMP; auto|]. eapply wr_opnd; eauto; lia. }
        stq. br_case H0; [lia|]. silq. goq. done_q. apply (ret_cas_ok n _ _ true). rewrite HE. apply rd_sext; auto; lia.
      + sil. stp. br_case H0; [|lia]. sil. apply weaken. apply IH; auto; lts.
    - sil. commit_at (o_mem o0) (rd (mi_e c) (o_mem o0) a n, false).
      { apply cas_fail_spec. rewrite <- CMP. auto. }
      goq. done_q. apply (ret_cas_ok n _ _ false). apply rd_sext; auto; lia. }
  start f r. stp. sil. apply weaken. apply Loop. exact Hin.
Qed.

Lemma mi_swap_sub_fn_atomic c n a v t : mi_wf c -> n = 1 \/ n = 2 ->
  0 <= a < 2 ^ mi_uw c -> a mod n = 0 -> 0 <= v < 2 ^ (8 * n) ->
  atomic_fx (mi_e c) (mi_swap_sub_fn c n a v t) (swap_spec (mi_e c) a n v).
Proof.
  intros Hc Hn Ha Hal Hv. destruct t as [acq_ rel_]. unfold mi_swap_sub_fn. destruct (mi_wf_w c Hc) as [Hw Hu].
  destruct (create_sub_word_mask_values (mi_arch c) (mi_e c) (mi_uw c) (mi_w c) n a) as [[dst shift] mask] eqn:E.
  apply sub_word_ok in E; try lia; [|apply mi_arch_s].
  unfa. destruct E as (Ed & _ & _ & Hin_w & Hs & _ & Hm). rewrite mi_arch_m in Hm.
  set (s := field_pos (mi_e c) n a) in *. pose proof (in_word_range _ _ _ _ _ _ Hin_w) as (Hs0 & Hs1 & Hn0).
  set (w := mi_w c) in *.
  set (M := sx_sll w mask shift).
  loop_inv 3%nat (fun f : regs => f Dst = dst /\ f Shift = shift /\ f Mask = M /\ exists V, f Val = sx_sll w V shift /\ low 32 V = v) Loop.
  { pose proof Hi as (Fd & Fs & Fm & V & Fv & HV).
    go. stp. rewrite Fd. sc_case HE.
    - lin_at (rd (mi_e c) (o_mem o4) a n).
      { split; [reflexivity|]. eapply wr_field; eauto.
        rewrite Fv, Fm. apply merge_xor_field'.
        - intros b Hb. rewrite sext_bits by lia. destruct (Z.ltb_spec b (8*4)); [|lia]. rewrite HE. reflexivity.
        - intros b Hb. unfold M. rewrite sx_sll_bits by lia. rewrite Hm, Hs. apply shl_mask_bits; lia.
        - intros b Hb Fb. rewrite sx_sll_bits, Hs by lia. rewrite (shl_val_bits v V 32 s n) by (auto; lia). rewrite Fb. reflexivity. }
      stq. br_case H0; [lia|]. silq. goq. done_q. f_equal. rewrite Fs.
      change (8 * 4) with 32. rewrite mi_srl_ok by lia. rewrite sx_srl_field; try lia.
      2:{ change 32 with (8 * 4). apply rd_range; auto; lia. }
      rewrite Hs, <- HE. apply (rd_field (mi_e c) 4 dst a n s); auto.
    - sil. stp. br_case H0; [|lia]. sil. apply weaken. apply IH; cbnx; [lts|]. eauto 6. }
  start f r. destruct Hin as (Fd & Fs & Fm & _ & Fv2).
  do 3 (stp; sil). apply weaken. apply Loop; cbnx. unfold M. rewrite Fs, Fm. eauto 8.
Qed.

Lemma mi_cas_sub_fn_atomic c n a old new t : mi_wf c -> n = 1 \/ n = 2 ->
  0 <= a < 2 ^ mi_uw c -> a mod n = 0 -> 0 <= old < 2 ^ (8 * n) -> 0 <= new < 2 ^ (8 * n) ->
  atomic_fx (mi_e c) (mi_cas_sub_fn c n a old new t) (cas_spec (mi_e c) a n old new).
Proof.
  intros Hc Hn Ha Hal Hold Hnew. destruct t as [acq_ rel_]. unfold mi_cas_sub_fn. destruct (mi_wf_w c Hc) as [Hw Hu].
  destruct (create_sub_word_mask_values (mi_arch c) (mi_e c) (mi_uw c) (mi_w c) n a) as [[dst shift] mask] eqn:E.
  apply sub_word_ok in E; try lia; [|apply mi_arch_s].
  unfa. destruct E as (Ed & _ & _ & Hin_w & Hs & _ & Hm). rewrite mi_arch_m in Hm.
  set (s := field_pos (mi_e c) n a) in *. pose proof (in_word_range _ _ _ _ _ _ Hin_w) as (Hs0 & Hs1 & Hn0).
  set (w := mi_w c) in *. set (e := mi_e c) in *.
  set (M := sx_sll w mask shift).
  loop_inv 4%nat (fun f : regs => f Dst = dst /\ f Shift = shift /\ f Mask = M /\
     (exists O, f Old = sx_sll w O shift /\ low 32 O = old) /\ exists V, f New = sx_sll w V shift /\ low 32 V = new) Loop.
  { pose proof Hi as (Fd & Fs & Fm & (O & Fo & HO) & V & Fv & HV).
    assert (forall m, wf_mem m -> 0 <= rd e m dst 4 < 2 ^ 32) as HR
      by (intros; change 32 with (8 * 4); apply rd_range; auto; lia).
    assert (forall m, wf_mem m -> (Z.land (sext 32 w (rd e m dst 4)) M = sx_sll w O shift <-> rd e m a n = old)) as CMP.
    { intros m Hm'. rewrite <- (rd_field e 4 dst a n s m) by auto. apply sx_sub_cmp; auto; lia. }
    assert (forall m j, wf_mem m -> low (8 * n) (mi_srl w j (sext 32 w (rd e m dst 4)) shift) = rd e m a n) as OUT.
    { intros m j Hm'. rewrite mi_srl_ok by lia. rewrite sx_srl_field by (auto; lia). rewrite Hs. apply rd_field; auto. }
    go. stp. rewrite Fd, Fm, Fo. change (8 * 4) with 32. br_case H.
    - sil. go. stp. rewrite Fd. sc_case HE.
      + apply CMP in H; auto.
        pose proof (rd_field_eq e 4 dst a n s _ _ Hin_w Ho6 Ho0 HE) as EQ.
        lin_at (rd e (o_mem o0) a n, true).
        { split; [auto|]. cbn [fst snd]. split; [congruence|]. eapply wr_field; eauto.
          rewrite Fv, Fm. apply merge_xor_field'.
          - intros b Hb. change (8 * 4) with 32. rewrite sext_bits by lia. destruct (Z.ltb_spec b 32); [|lia]. rewrite HE. reflexivity.
          - intros b Hb. unfold M. rewrite sx_sll_bits by lia. rewrite Hm, Hs. apply shl_mask_bits; lia.
          - intros b Hb Fb. rewrite sx_sll_bits, Hs by lia. rewrite (shl_val_bits new V 32 s n) by (auto; lia). rewrite Fb. reflexivity. }
        stq. br_case H0; [lia|]. silq. goq. done_q. rewrite Fs. apply (ret_cas_ok n _ _ true). auto.
      + sil. stp. br_case H0; [|lia]. sil. apply weaken. apply IH; cbnx; [lts|]. eauto 8.
    - sil. commit_at (o_mem o0) (rd e (o_mem o0) a n, false).
      { apply cas_fail_spec. rewrite <- CMP by auto. auto. }
      goq. done_q. rewrite Fs. apply (ret_cas_ok n _ _ false). auto. }
  start f r. destruct Hin as (Fd & Fs & Fm & [_ Fo] & [_ Fn]).
  do 4 (stp; sil). apply weaken. apply Loop; cbnx. unfold M. rewrite Fs, Fm. eauto 12.
Qed.

(* ---- what the trait implementations do ---- *)
Lemma mi_sizes c n : mi_wf c -> mi_word c n || mi_subword n = true -> 0 < n /\ 8 * n <= mi_w c.
Proof. intros Hc. destruct (mi_wf_w c Hc). unfold mi_word, mi_subword. intros; beqs. destruct H1; beqs; lia. Qed.
Theorem mi_load_atomic c n o a f : mi_wf c -> mi_load c n o a = Impl f -> atomic_fx (mi_e c) f (load_spec (mi_e c) a n).
Proof. intros Hc. unfold mi_load. disp. apply mi_sizes in E; auto. apply mi_load_fn_atomic; tauto. Qed.
Theorem mi_store_atomic c n o a v f : mi_wf c -> mi_store c n o a v = Impl f -> atomic_fx (mi_e c) f (store_spec (mi_e c) a n v).
Proof. intros Hc. unfold mi_store. disp. apply mi_sizes in E; auto. apply mi_store_fn_atomic; tauto. Qed.
Theorem mi_swap_atomic c n o a v f : mi_wf c -> 0 <= a < 2 ^ mi_uw c -> a mod n = 0 -> 0 <= v < 2 ^ (8 * n) ->
  mi_swap c n o a v = Impl f -> atomic_fx (mi_e c) f (swap_spec (mi_e c) a n v).
Proof.
  intros Hc Ha Hal Hv. unfold mi_swap. pose proof (mi_sizes c n Hc) as S. disp.
  - apply mi_swap_fn_atomic; apply S; reflexivity.
  - apply mi_swap_sub_fn_atomic; auto. unfold mi_subword in E0. beqs. lia.
Qed.
Theorem mi_cas_atomic c n os of a old new f : mi_wf c -> 0 <= a < 2 ^ mi_uw c -> a mod n = 0 ->
  0 <= old < 2 ^ (8 * n) -> 0 <= new < 2 ^ (8 * n) -> ~ (n = 4 /\ mi_w c = 64) ->
  mi_cas c n os of a old new = Impl f -> atomic_fx (mi_e c) f (cas_spec (mi_e c) a n old new).
Proof.
  intros Hc Ha Hal Ho Hn Hx. unfold mi_cas. pose proof (mi_sizes c n Hc) as S. disp.
  - specialize (S eq_refl).
    assert (8 * n = mi_w c) as W.
    { unfold mi_word in E. destruct Hc as [[Hc _]|[Hc _]]; rewrite Hc in *; beqs; destruct E as [E|E]; beqs; try lia. }
    intros os0 s0 Hw Hp Hi. destruct p as [x y]. apply (mi_cas_fn_atomic c n a old new (x, y)); try tauto.
    split; [exact Hi|]. destruct Hi as (_ & [Hr _] & _). rewrite <- W in *. apply sext_full; auto; lia.
  - apply mi_cas_sub_fn_atomic; auto. unfold mi_subword in E0. beqs. lia.
Qed.
Theorem mi_cas_atomic_partial c n os of a old new f : mi_wf c -> 0 <= a < 2 ^ mi_uw c -> a mod n = 0 ->
  0 <= old < 2 ^ (8 * n) -> 0 <= new < 2 ^ (8 * n) ->
  mi_cas c n os of a old new = Impl f ->
  atomic_fx (mi_e c) (if mi_word c n then with_in f (fun g => sext (8 * n) (mi_w c) (g Old) = g Old) else f) (cas_spec (mi_e c) a n old new).
Proof.
  intros Hc Ha Hal Ho Hn. unfold mi_cas. pose proof (mi_sizes c n Hc) as S. disp.
  - apply mi_cas_fn_atomic; apply S; reflexivity.
  - apply mi_cas_sub_fn_atomic; auto. unfold mi_subword in E0. beqs. lia.
Qed.
(* `ll` sign-extends and `bne` compares 64 bits: same counterexample as on riscv64 *)
Theorem mi_cas_32_on_64_refuted :
  exists c f, mi_wf c /\ mi_cas c 4 SeqCst SeqCst 0 (2 ^ 31) 0 = Impl f /\ ~ atomic_fn (mi_e c) f (cas_spec (mi_e c) 0 4 (2 ^ 31) 0).
Proof.
  exists {| mi_w := 64; mi_uw := 64; mi_r6 := false; mi_e := LE |}. eexists. split; [right; auto|]. split; [reflexivity|]. refute_top 12%nat.
Qed.
