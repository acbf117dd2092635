From Verif Require Import Sym Arch_aarch64 Fields Wide.

Ltac unfa := unfold aa_stxr, aa_stxp, aa_ldxp, aa_cmp, cset_eq, cset_ne, cinc_ne, aa_swp, aa_casi, aa_casp, aa_swpp, aa_ldp, aa_stp,
  cmpz, bne_z, beq_z, ccmp_eq.

Lemma aa_load_fn_atomic e n a t : 0 < n -> 8 * n <= 64 -> atomic_fx e (aa_load_fn n a t) (load_spec e a n).
Proof.
  intros Hn Hw. unfold aa_load_fn. start f r.
  stp. rewrite Hin, Z.add_0_r. lin_at (rd e (o_mem o) a n); [apply load_spec_refl|].
  done_q. rewrite rd_low by (auto; lia). reflexivity.
Qed.
Lemma aa_store_fn_atomic e n a v t : 0 < n -> 8 * n <= 64 -> atomic_fx e (aa_store_fn n a v t) (store_spec e a n v).
Proof.
  intros Hn Hw. unfold aa_store_fn. destruct t as [re fe]. start f r. destruct Hin as [Ha Hv].
  stp. rewrite Ha, Z.add_0_r. lin_at tt; [eapply wr_opnd; eauto; lia|]. stq. silq. done_q. reflexivity.
Qed.
Lemma aa_swap_fn_atomic e c n a v t : 0 < n -> 8 * n <= 64 -> atomic_fx e (aa_swap_fn c n a v t) (swap_spec e a n v).
Proof.
  intros Hn Hw. destruct t as [[ac re] fe]. unfold aa_swap_fn. destruct (aa_lse c); unfa.
  - start f r. destruct Hin as [Ha Hv]. stp. rewrite Ha.
    lin_at (rd e (o_mem o) a n). { split; [reflexivity|]. eapply wr_opnd; eauto; lia. }
    stq. silq. done_q. now rewrite rd_low by (auto; lia).
  - loop_inv 0%nat (fun f : regs => f Dst = a /\ opnd 64 (8 * n) v (f Val)) Loop.
    { destruct Hi as [Fd Fv]. go. stp. rewrite Fd. sc_case HE.
      - lin_at (rd e (o_mem o1) a n). { split; [reflexivity|]. eapply wr_opnd; eauto; lia. }
        stq. br_case H; [|lia]. silq. goq. done_q. rewrite <- HE. now rewrite rd_low by (auto; lia).
      - sil. stp. br_case H; [lia|]. sil. apply weaken. apply IH; cbnx; [lts|auto]. }
    start f r. apply Loop. exact Hin.
Qed.
Lemma ret_cas0_ok n x v b : low (8 * n) x = v -> ret_cas0 n x (b2z (negb b)) = Some (v, b).
Proof. intros <-. destruct b; reflexivity. Qed.
Lemma aa_cmp_ok e m a n old x : wf_mem m -> 0 < n -> 8 * n <= 64 -> aa_word n = true -> opnd 64 (8 * n) old x ->
  (low (aa_view n) (rd e m a n) =? low (8 * n) x) = (rd e m a n =? old).
Proof.
  intros Hm Hn Hw Wn [_ Ho]. rewrite Ho. f_equal. pose proof (rd_range e m a n Hm ltac:(lia)) as R.
  apply low_id. split; [lia|]. eapply Z.lt_le_trans; [apply R|]. apply Z.pow_le_mono_r; [lia|].
  unfold aa_view, aa_word in *. destruct (Z.eqb_spec n 8); [lia|]. beqs. repeat (destruct Wn as [Wn|Wn]; beqs); try lia.
Qed.
Lemma low_view n x : aa_word n = true -> low (8 * n) (low (aa_view n) x) = low (8 * n) x.
Proof.
  intros Wn. apply low_low. unfold aa_view, aa_word in *. beqs. repeat (destruct Wn as [Wn|Wn]; beqs); subst; cbn; lia.
Qed.

Lemma aa_cas_fn_atomic e c n a old new t : aa_word n = true -> 0 < n -> 8 * n <= 64 ->
  atomic_fx e (aa_cas_fn c n a old new t) (cas_spec e a n old new).
Proof.
  intros Wn Hn Hw. destruct t as [[ac re] fe]. unfold aa_cas_fn. destruct (aa_lse c); unfa.
  - start f r. destruct Hin as (Ha & Ho & Hv). stp; sil. stp. rewrite Ha. rewrite low_view by auto. rewrite (proj2 Ho). br_case HE.
    + lin_at (rd e (o_mem o0) a n, true). { split; [reflexivity|]. cbn [fst snd]. split; [auto|]. eapply wr_opnd; eauto; lia. }
      stq. silq. stq. silq. stq. silq. done_q. rewrite (aa_cmp_ok _ _ _ _ old) by auto. rewrite <- HE, Z.eqb_refl.
      apply (ret_cas_ok n _ _ true). rewrite HE. apply rd_low; auto; lia.
    + lin_at (rd e (o_mem o0) a n, false). { apply cas_fail_spec; auto. }
      stq. silq. stq. silq. stq. silq. done_q. rewrite (aa_cmp_ok _ _ _ _ old) by auto.
      destruct (Z.eqb_spec (rd e (o_mem o0) a n) old); [congruence|].
      apply (ret_cas_ok n _ _ false). apply rd_low; auto; lia.
  - loop_inv 0%nat (fun f : regs => f Dst = a /\ opnd 64 (8 * n) old (f Old) /\ opnd 64 (8 * n) new (f New)) Loop.
    { destruct Hi as (Fd & Fo & Fv). do 3 (stp; sil). stp. rewrite Fd, (aa_cmp_ok _ _ _ _ old) by auto.
      destruct (Z.eqb_spec (rd e (o_mem o0) a n) old) as [H|H]; cbn [b2z Z.eqb].
      - sil. stp. rewrite Fd. sc_case HE.
        + lin_at (rd e (o_mem o3) a n, true). { split; [reflexivity|]. cbn [fst snd]. split; [congruence|]. eapply wr_opnd; eauto; lia. }
          stq. br_case H0; [|lia]. silq. goq. done_q. rewrite <- HE. apply (ret_cas0_ok n _ _ true). apply rd_low; auto; lia.
        + sil. stp. br_case H0; [lia|]. sil. apply weaken. apply IH; cbnx; [lts|auto].
      - sil. commit_at (o_mem o0) (rd e (o_mem o0) a n, false). { apply cas_fail_spec; auto. }
        goq. done_q. apply (ret_cas0_ok n _ _ false). apply rd_low; auto; lia. }
    start f r. apply Loop. exact Hin.
Qed.
Lemma aa_casw_fn_atomic e n a old new t : aa_word n = true -> 0 < n -> 8 * n <= 64 ->
  atomic_fx e (aa_casw_fn n a old new t) (casw_spec e a n old new).
Proof.
  intros Wn Hn Hw. destruct t as [[ac re] fe]. unfold aa_casw_fn. unfa. start f r. destruct Hin as (Fd & Fo & Fv).
  do 2 (stp; sil). stp. rewrite Fd, (aa_cmp_ok _ _ _ _ old) by auto.
  destruct (Z.eqb_spec (rd e (o_mem o) a n) old) as [H|H]; cbn [b2z Z.eqb].
  - sil. stp. rewrite Fd. sc_case HE.
    + lin_at (rd e (o_mem o2) a n, true). { split; [reflexivity|]. cbn [fst snd]. split; [congruence|]. eapply wr_opnd; eauto; lia. }
      goq. done_q. rewrite <- HE. apply (ret_cas0_ok n _ _ true). apply rd_low; auto; lia.
    + sil. commit_at (o_mem o) (rd e (o_mem o) a n, false). { apply casw_fail_spec. }
      goq. done_q. apply (ret_cas0_ok n _ _ false). apply rd_low; auto; lia.
  - sil. commit_at (o_mem o) (rd e (o_mem o) a n, false). { apply casw_fail_spec. }
    goq. done_q. apply (ret_cas0_ok n _ _ false). apply rd_low; auto; lia.
Qed.

(* ---- 128-bit ---- *)
Lemma aa_first e : pair_lo_first A_aarch64 e = true. Proof. destruct e; reflexivity. Qed.
Lemma aa_join_half e v : aa_join e (half1 e 64 v) (half2 e 64 v) = v.
Proof. unfold aa_join. destruct (lo_first_join_half A_aarch64 e 64 v (aa_first e)); [auto|lia]. Qed.
Lemma aa_join_rd e m a : wf_mem m -> aa_join e (rd e m a 8) (rd e m (a + 8) 8) = rd e m a 16.
Proof.
  intros Hm. unfold aa_join. rewrite lo_first_join; [apply (halves_rd e m a 8); auto; lia|apply aa_first|lia| |];
  apply (rd_range e m _ 8); auto; lia.
Qed.
Lemma aa_pre e v rl rh f : pair_pre e v rl rh f -> halves e 64 (f rl) (f rh) = v.
Proof. intros [-> ->]. destruct (lo_first A_aarch64 e 64 v (aa_first e)) as [-> ->]. apply halves_half; lia. Qed.
Lemma aa_wr e m a v rl rh f : pair_pre e v rl rh f -> meq (wr e (wr e m a 8 (f rl)) (a + 8) 8 (f rh)) (wr e m a 16 v).
Proof. intros H. eapply meq_trans; [apply (halves_wr e m a 8); lia|]. rewrite (aa_pre e v) by auto. apply meq_refl. Qed.
Lemma aa_cas16 e m a old rl rh f : wf_mem m -> pair_pre e old rl rh f ->
  (rd e m a 8 = f rl /\ rd e m (a + 8) 8 = f rh) <-> rd e m a 16 = old.
Proof.
  intros Hm [-> ->]. destruct (lo_first A_aarch64 e 64 old (aa_first e)) as [-> ->].
  rewrite <- (halves_inj e 64) by (try apply (rd_range e m _ 8); auto; lia). pose proof (halves_rd e m a 8 Hm ltac:(lia)) as Q.
  change (2 * 8) with 16 in Q. change (8 * 8) with 64 in Q. now rewrite Q.
Qed.
Lemma half1_rd e m a : wf_mem m -> half1 e 64 (rd e m a 16) = rd e m a 8.
Proof.
  intros Hm. symmetry. apply (halves_inj e 64 (rd e m a 8) (rd e m (a + 8) 8)); try apply (rd_range e m _ 8); auto; try lia.
  apply (halves_rd e m a 8); auto; lia.
Qed.
Lemma half2_rd e m a : wf_mem m -> half2 e 64 (rd e m a 16) = rd e m (a + 8) 8.
Proof.
  intros Hm. symmetry. apply (halves_inj e 64 (rd e m a 8) (rd e m (a + 8) 8)); try apply (rd_range e m _ 8); auto; try lia.
  apply (halves_rd e m a 8); auto; lia.
Qed.
Lemma pair_pre_range e old rl rh f : 0 <= old < 2 ^ 128 -> pair_pre e old rl rh f -> 0 <= f rl < 2 ^ 64 /\ 0 <= f rh < 2 ^ 64.
Proof.
  intros Ho [-> ->]. destruct (lo_first A_aarch64 e 64 old (aa_first e)) as [-> ->].
  split; [apply half1_range|apply half2_range]; lia.
Qed.

Lemma aa_load128_fn_atomic c a t : atomic_fx (aa_e c) (aa_load128_fn c a t) (load_spec (aa_e c) a 16).
Proof.
  unfold aa_load128_fn. set (e := aa_e c). destruct t as [o0 fe|o0 fe|ac re]; unfa.
  - start f r. stp. rewrite Hin. lin_at (rd e (o_mem o) a 16); [apply load_spec_refl|].
    stq. silq. done_q. apply some_eq. apply aa_join_half.
  - start f r. stp; sil. stp. rewrite Hin. lin_at (rd e (o_mem o1) a 16); [apply load_spec_refl|].
    stq. silq. done_q. apply some_eq. apply aa_join_half.
  - destruct (aa_lse c).
    + start f r. destruct Hin as (Ha & F1 & F2). stp. rewrite Ha, F1, F2. lin_at (rd e (o_mem o) a 16).
      { split; [reflexivity|]. destruct (Z.eqb_spec (halves e 64 0 0) (rd e (o_mem o) a 16)) as [E|E]; [|apply meq_refl].
        apply meq_sym. apply wr_rd_same; auto; [lia|]. rewrite <- E. destruct e; reflexivity. }
      done_q. apply some_eq. apply aa_join_half.
    + loop_inv 0%nat (fun f : regs => f Src = a) Loop.
      { do 2 (stp; sil). stp. rewrite Hi. scp_case HE.
        - lin_at (rd e (o_mem o1) a 16).
          { split; [reflexivity|]. eapply meq_trans; [apply meq_sym, wr_rd_same with (a := a) (n := 16); auto; [lia|]|].
            - apply (rd_low e _ a 16); auto; lia.
            - apply meq_sym. rewrite <- HE1, <- HE2.
              eapply meq_trans; [apply (halves_wr e _ a 8); lia|]. rewrite (halves_rd e _ a 8) by (auto; lia). apply meq_refl. }
          stq. silq. done_q. apply some_eq. rewrite <- HE1, <- HE2. apply aa_join_rd; auto.
        - sil. stp. sil. apply weaken. apply IH; cbnx; [lts|auto]. }
      start f r. apply Loop. exact Hin.
Qed.
Lemma aa_store128_fn_atomic c a v t : atomic_fx (aa_e c) (aa_store128_fn c a v t) (store_spec (aa_e c) a 16 v).
Proof.
  unfold aa_store128_fn. set (e := aa_e c). destruct t as [o0 fa fr|[[ac re] fe]|[[ac re] fe]]; unfa.
  - start f r. destruct Hin as (Ha & Hp). stp; sil. stp. rewrite Ha, (aa_pre e v) by auto. lin_at tt; [apply meq_refl|].
    stq. silq. done_q. reflexivity.
  - start f r. destruct Hin as (Ha & Hp). stp. rewrite Ha, (aa_pre e v) by auto. lin_at tt; [apply meq_refl|].
    stq. silq. done_q. reflexivity.
  - loop_inv 0%nat (fun f : regs => f Dst = a /\ pair_pre e v Val ValHi f) Loop.
    { destruct Hi as [Fd Fp]. do 2 (stp; sil). stp. rewrite Fd. scp_case HE.
      - lin_at tt. { apply (aa_wr e _ a v Val ValHi f); auto. }
        stq. silq. stq. silq. done_q. reflexivity.
      - sil. stp. sil. apply weaken. apply IH; cbnx; [lts|auto]. }
    start f r. apply Loop. exact Hin.
Qed.
Lemma aa_swap128_fn_atomic c a v t : atomic_fx (aa_e c) (aa_swap128_fn c a v t) (swap_spec (aa_e c) a 16 v).
Proof.
  unfold aa_swap128_fn. set (e := aa_e c). destruct t as [[ac re] fe]. destruct (aa_lse128 c); unfa.
  - start f r. destruct Hin as (Ha & Hp). stp. rewrite Ha, (aa_pre e v) by auto.
    lin_at (rd e (o_mem o) a 16); [split; [reflexivity|apply meq_refl]|].
    stq. silq. done_q. apply some_eq. apply aa_join_half.
  - loop_inv 0%nat (fun f : regs => f Dst = a /\ pair_pre e v Val ValHi f) Loop.
    { destruct Hi as [Fd Fp]. do 2 (stp; sil). stp. rewrite Fd. scp_case HE.
      - lin_at (rd e (o_mem o1) a 16). { split; [reflexivity|]. apply (aa_wr e _ a v Val ValHi f); auto. }
        stq. silq. stq. silq. done_q. apply some_eq. rewrite <- HE1, <- HE2. apply aa_join_rd; auto.
      - sil. stp. sil. apply weaken. apply IH; cbnx; [lts|auto]. }
    start f r. apply Loop. exact Hin.
Qed.
Lemma b2z_eqb1 b : (b2z b =? 1) = b. Proof. destruct b; reflexivity. Qed.
Lemma aa_cas128_fn_atomic c a old new t : 0 <= old < 2 ^ 128 ->
  atomic_fx (aa_e c) (aa_cas128_fn c a old new t) (cas_spec (aa_e c) a 16 old new).
Proof.
  intros Hold. unfold aa_cas128_fn. set (e := aa_e c). destruct t as [[ac re] fe]. destruct (aa_lse c); unfa.
  - start f r. destruct Hin as (Ha & Ho & Hv). do 2 (stp; sil). stp. rewrite Ha, (aa_pre e new New NewHi f), (aa_pre e old Old OldHi f) by auto.
    destruct (pair_pre_range e old Old OldHi f Hold Ho) as [R1 R2].
    assert (forall m, wf_mem m -> (if b2z (low 64 (half1 e 64 (rd e m a 16)) =? low 64 (f Old)) =? 1
        then b2z (low 64 (half2 e 64 (rd e m a 16)) =? low 64 (f OldHi)) else 0) = b2z (rd e m a 16 =? old)) as CMP.
    { intros m Hm. rewrite half1_rd, half2_rd by auto. rewrite (low_id 64 (f Old)), (low_id 64 (f OldHi)) by auto.
      change 64 with (8 * 8) at 1 2. rewrite !rd_low by (auto; lia). pose proof (aa_cas16 e m a old Old OldHi f Hm Ho) as Q.
      rewrite b2z_eqb1. destruct (Z.eqb_spec (rd e m a 8) (f Old)), (Z.eqb_spec (rd e m (a + 8) 8) (f OldHi)), (Z.eqb_spec (rd e m a 16) old); try reflexivity; tauto. }
    br_case HE.
    + lin_at (rd e (o_mem o1) a 16, true). { split; [reflexivity|]. cbn [fst snd]. split; [auto|apply meq_refl]. }
      do 4 (stq; silq). done_q. rewrite CMP by auto. rewrite <- HE, Z.eqb_refl. cbn [b2z Z.eqb orb negb Pos.eqb].
      apply some_pair. apply aa_join_half.
    + lin_at (rd e (o_mem o1) a 16, false). { apply cas_fail_spec; auto. }
      do 4 (stq; silq). done_q. rewrite CMP by auto.
      destruct (Z.eqb_spec (rd e (o_mem o1) a 16) old) as [X|X]; [congruence|]. cbn [b2z Z.eqb orb negb Pos.eqb].
      apply some_pair. apply aa_join_half.
  - loop_inv 0%nat (fun f : regs => f Dst = a /\ pair_pre e old Old OldHi f /\ pair_pre e new New NewHi f) Loop.
    { destruct Hi as (Fd & Fo & Fv). destruct (pair_pre_range e old Old OldHi f Hold Fo) as [R1 R2].
      do 2 (stp; sil). 
      set (V2 := if o_ok o0 then rd e (o_mem o0) (f Dst + 8) 8 else low (8 * 8) (o_junk o0)).
      assert (0 <= V2 < 2 ^ 64) as HV2. { unfold V2. destruct (o_ok o0); [apply (rd_range e _ _ 8); auto; lia|apply low_range; lia]. }
      do 4 (stp; sil). stp. rewrite Fd.
      rewrite (low_id 64 (f Old)), (low_id 64 (f OldHi)), (low_id 64 V2) by auto.
      assert (low 64 (rd e (o_mem o0) a 8) = rd e (o_mem o0) a 8) as -> by (apply (rd_low e _ a 8); auto; lia).
      set (V1 := rd e (o_mem o0) a 8).
      assert ((low 32 (1 - b2z (V1 =? f Old) + (1 - b2z (V2 =? f OldHi))) =? 0) = ((V1 =? f Old) && (V2 =? f OldHi))) as ->
        by (destruct (V1 =? f Old), (V2 =? f OldHi); reflexivity).
      destruct ((V1 =? f Old) && (V2 =? f OldHi)) eqn:EE.
      - apply andb_true_iff in EE. destruct EE as [E1 E2]. apply Z.eqb_eq in E1, E2.
        sil. stp; sil. stp. rewrite Fd. scp_case HE.
        + assert (rd e (o_mem o7) a 16 = old) as EQ. { refine (proj1 (aa_cas16 e (o_mem o7) a old Old OldHi f _ Fo) _); [auto|split; congruence]. }
          lin_at (rd e (o_mem o7) a 16, true). { split; [reflexivity|]. cbn [fst snd]. split; [auto|]. apply (aa_wr e _ a new New NewHi f); auto. }
          do 3 (stq; silq). done_q. apply some_pair. rewrite <- HE1, <- HE2. apply aa_join_rd; auto.
        + sil. stp; sil. apply weaken. apply IH; cbnx; [lts|auto].
      - sil. stp. rewrite Fd. scp_case HE.
        + assert (rd e (o_mem o6) a 16 <> old) as NE.
          { intros X. pose proof (proj2 (aa_cas16 e (o_mem o6) a old Old OldHi f Ho6 Fo) X) as [X1 X2]. rewrite HE1 in X1. rewrite HE2 in X2.
            rewrite X1, X2, !Z.eqb_refl in EE. discriminate. }
          lin_at (rd e (o_mem o6) a 16, false).
          { split; [reflexivity|]. cbn [fst snd]. split; [auto|]. rewrite <- HE1, <- HE2.
            eapply meq_trans; [apply (halves_wr e _ a 8); lia|]. apply (wr_rd_same e _ a 16); auto; [lia|].
            rewrite (halves_rd e _ a 8) by (auto; lia). apply (rd_low e _ a 16); auto; lia. }
          do 5 (stq; silq). done_q. apply some_pair. rewrite <- HE1, <- HE2. apply aa_join_rd; auto.
        + sil. stp; sil. apply weaken. apply IH; cbnx; [lts|auto]. }
    start f r. apply Loop. exact Hin.
Qed.

(* ---- what the trait implementations do ---- *)
Lemma aa_sizes n : aa_word n = true -> 0 < n /\ 8 * n <= 64.
Proof. unfold aa_word. intros H. beqs. repeat (destruct H as [H|H]; beqs); lia. Qed.
Theorem aa_load_atomic c n o a f : aa_load c n o a = Impl f -> atomic_fx (aa_e c) f (load_spec (aa_e c) a n).
Proof.
  unfold aa_load. disp.
  - destruct (aa_sizes n E). apply aa_load_fn_atomic; auto.
  - beqs. subst n. apply aa_load128_fn_atomic.
Qed.
Theorem aa_store_atomic c n o a v f : aa_store c n o a v = Impl f -> atomic_fx (aa_e c) f (store_spec (aa_e c) a n v).
Proof.
  unfold aa_store. disp.
  - destruct (aa_sizes n E). apply aa_store_fn_atomic; auto.
  - beqs. subst n. apply aa_store128_fn_atomic.
Qed.
Theorem aa_swap_atomic c n o a v f : aa_swap c n o a v = Impl f -> atomic_fx (aa_e c) f (swap_spec (aa_e c) a n v).
Proof.
  unfold aa_swap. disp.
  - destruct (aa_sizes n E). apply aa_swap_fn_atomic; auto.
  - beqs. subst n. apply aa_swap128_fn_atomic.
Qed.
Theorem aa_cas_atomic c n os of a old new f : 0 <= old < 2 ^ (8 * n) ->
  aa_cas c n os of a old new = Impl f -> atomic_fx (aa_e c) f (cas_spec (aa_e c) a n old new).
Proof.
  intros Ho. unfold aa_cas. disp.
  - destruct (aa_sizes n E). apply aa_cas_fn_atomic; auto.
  - beqs. subst n. apply aa_cas128_fn_atomic; auto.
Qed.
Theorem aa_casw_atomic c n os of a old new f : 0 <= old < 2 ^ (8 * n) ->
  aa_casw c n os of a old new = Impl f -> atomic_fx (aa_e c) f (casw_spec (aa_e c) a n old new).
Proof.
  intros Ho. unfold aa_casw. destruct (aa_word n) eqn:E; [destruct (aa_lse c) eqn:E0|].
  - intros H. apply casw_of_cas. eapply aa_cas_atomic; eauto.
  - disp. destruct (aa_sizes n E). apply aa_casw_fn_atomic; auto.
  - intros H. apply casw_of_cas. eapply aa_cas_atomic; eauto.
Qed.
