From Verif Require Import P_legacy Arch_aarch64l P_aarch64 Wide.
Ltac unfa := unfold aal_cmp, aal_pldp; P_aarch64.unfa; unfl.

Lemma ret_cas0_l_ok x v b : x = v -> ret_cas0_l x (b2z (negb b)) = Some (v, b).
Proof. intros <-. destruct b; reflexivity. Qed.
Lemma aal_cmp_ok e m a n old : wf_mem m -> aa_word n = true -> 0 <= old < 2 ^ (8 * n) ->
  (low (aa_view n) (rd e m a n) =? low (aa_view n) old) = (rd e m a n =? old).
Proof.
  intros Hm Wn Ho. assert (0 < n /\ 8 * n <= aa_view n) as [Hn Hv] by (unfold aa_view, aa_word in *; beqs; repeat (destruct Wn as [Wn|Wn]; beqs); subst; cbn; lia).
  pose proof (rd_range e m a n Hm ltac:(lia)) as Rg. assert (2 ^ (8 * n) <= 2 ^ aa_view n) by (apply Z.pow_le_mono_r; lia).
  now rewrite !low_id by lia.
Qed.

Lemma aal_load_fn_atomic e b n a t : 0 < n -> 8 * n <= 64 -> atomic_fx e (aal_load_fn b n a t) (load_spec e a n).
Proof.
  intros Hn Hw. unfold aal_load_fn. unfa. start f r. destruct Hin as [Hs Fo].
  stp. rewrite Hs, Z.add_0_r. lin_at (rd e (o_mem o) a n); [apply load_spec_refl|].
  stq. priv Fo. silq. done_q. rewrite rd_low by (auto; lia). reflexivity.
Qed.
Lemma aal_store_fn_atomic e b n a v t : 0 < n -> 8 * n <= 64 -> atomic_fx e (aal_store_fn b n a v t) (store_spec e a n v).
Proof.
  intros Hn Hw. unfold aal_store_fn. destruct t as [re fe]. unfa. start f r. destruct Hin as [Ha Hv]. stp. priv Hv. sil.
  stp. rewrite Ha, Z.add_0_r. lin_at tt; [apply meq_refl|]. stq. silq. done_q. reflexivity.
Qed.
Lemma aal_swap_fn_atomic e c b n a v t : 0 < n -> 8 * n <= 64 -> atomic_fx e (aal_swap_fn c b n a v t) (swap_spec e a n v).
Proof.
  intros Hn Hw. destruct t as [[ac re] fe]. unfold aal_swap_fn. destruct (aa_lse c); unfa.
  - start f r. destruct Hin as (Ha & Hv & Fo). stp. priv Hv. sil. stp. rewrite Ha.
    lin_at (rd e (o_mem o0) a n). { split; [reflexivity|apply meq_refl]. }
    stq. silq. stq. priv Fo. silq. done_q. now rewrite rd_low by (auto; lia).
  - loop_inv 1%nat (fun f : regs => f Dst = a /\ f Val = v /\ f OutP = b_out b) Loop.
    { destruct Hi as (Fd & Fv & Fo). go. stp. rewrite Fd. sc_case HE.
      - lin_at (rd e (o_mem o1) a n). { split; [reflexivity|]. rewrite Fv. apply meq_refl. }
        stq. br_case H; [|lia]. silq. stq. silq. stq. priv Fo. silq. done_q. rewrite <- HE. now rewrite rd_low by (auto; lia).
      - sil. stp. br_case H; [lia|]. sil. apply weaken. apply IH; cbnx; [lts|auto]. }
    start f r. destruct Hin as (Ha & Hv & Fo). stp. priv Hv. sil. apply weaken. apply Loop. cbnx. auto.
Qed.
Lemma aal_cas_fn_atomic e c b n a old new t : aa_word n = true -> 0 < n -> 8 * n <= 64 -> 0 <= old < 2 ^ (8 * n) ->
  atomic_fx e (aal_cas_fn c b n a old new t) (cas_spec e a n old new).
Proof.
  intros Wn Hn Hw Vo. destruct t as [[ac re] fe]. unfold aal_cas_fn. destruct (aa_lse c); unfa.
  - start f r. destruct Hin as (Ha & Ho & Hv & Fo). stp. priv Ho. sil. stp. priv Hv. sil. stp; sil. stp. rewrite Ha. rewrite low_view, (low_id _ old) by auto. br_case HE.
    + lin_at (rd e (o_mem o2) a n, true). { split; [reflexivity|]. cbn [fst snd]. split; [auto|apply meq_refl]. }
      stq. silq. stq. silq. stq. priv Fo. silq. stq. silq. done_q. rewrite aal_cmp_ok by auto. rewrite <- HE, Z.eqb_refl.
      apply (ret_cas_l_ok _ _ true). apply low_id; auto.
    + lin_at (rd e (o_mem o2) a n, false). { apply cas_fail_spec; auto. }
      stq. silq. stq. silq. stq. priv Fo. silq. stq. silq. done_q. rewrite aal_cmp_ok by auto.
      destruct (Z.eqb_spec (rd e (o_mem o2) a n) old); [congruence|].
      apply (ret_cas_l_ok _ _ false). apply rd_low; auto; lia.
  - loop_inv 2%nat (fun f : regs => f Dst = a /\ f Old = old /\ f New = new /\ f OutP = b_out b) Loop.
    { destruct Hi as (Fd & Fo & Fv & Fp). do 3 (stp; sil). stp. rewrite Fd, Fo, aal_cmp_ok by auto.
      destruct (Z.eqb_spec (rd e (o_mem o0) a n) old) as [H|H]; cbn [b2z Z.eqb].
      - sil. stp. rewrite Fd. sc_case HE.
        + lin_at (rd e (o_mem o3) a n, true). { split; [reflexivity|]. cbn [fst snd]. split; [congruence|]. rewrite Fv. apply meq_refl. }
          stq. br_case H0; [|lia]. silq. do 3 (stq; silq). stq. priv Fp. silq. done_q. rewrite <- HE. apply (ret_cas0_l_ok _ _ true). apply rd_low; auto; lia.
        + sil. stp. br_case H0; [lia|]. sil. apply weaken. apply IH; cbnx; [lts|auto].
      - sil. commit_at (o_mem o0) (rd e (o_mem o0) a n, false). { apply cas_fail_spec; auto. }
        do 4 (stq; silq). stq. priv Fp. silq. done_q. apply (ret_cas0_l_ok _ _ false). apply rd_low; auto; lia. }
    start f r. destruct Hin as (Ha & Ho & Hv & Fp). stp. priv Hv. sil. stp. priv Ho. sil. apply weaken. apply Loop. cbnx. auto.
Qed.
Lemma aal_casw_fn_atomic e b n a old new t : aa_word n = true -> 0 < n -> 8 * n <= 64 -> 0 <= old < 2 ^ (8 * n) ->
  atomic_fx e (aal_casw_fn b n a old new t) (casw_spec e a n old new).
Proof.
  intros Wn Hn Hw Vo. destruct t as [[ac re] fe]. unfold aal_casw_fn. unfa. start f r. destruct Hin as (Fd & Fo & Fv & Fp).
  stp. priv Fv. sil. stp. priv Fo. sil. do 2 (stp; sil). stp. rewrite Fd, aal_cmp_ok by auto.
  destruct (Z.eqb_spec (rd e (o_mem o1) a n) old) as [H|H]; cbn [b2z Z.eqb].
  - sil. stp. rewrite Fd. sc_case HE.
    + lin_at (rd e (o_mem o4) a n, true). { split; [reflexivity|]. cbn [fst snd]. split; [congruence|apply meq_refl]. }
      do 3 (stq; silq). stq. priv Fp. silq. done_q. rewrite <- HE. apply (ret_cas0_l_ok _ _ true). apply rd_low; auto; lia.
    + sil. commit_at (o_mem o1) (rd e (o_mem o1) a n, false). { apply casw_fail_spec. }
      do 3 (stq; silq). stq. priv Fp. silq. done_q. apply (ret_cas0_l_ok _ _ false). apply rd_low; auto; lia.
  - sil. commit_at (o_mem o1) (rd e (o_mem o1) a n, false). { apply casw_fail_spec. }
    do 4 (stq; silq). stq. priv Fp. silq. done_q. apply (ret_cas0_l_ok _ _ false). apply rd_low; auto; lia.
Qed.

(* ---- 128-bit ---- *)
Lemma aal_out_half e v : 0 <= v < 2 ^ 128 -> halves e 64 (low (8 * 8) (half1 e 64 v)) (low (8 * 8) (half2 e 64 v)) = v.
Proof. intros Hv. change (8 * 8) with 64. rewrite !low_id by (apply half1_range || apply half2_range; lia). apply halves_half. lia. Qed.
Lemma aal_out_rd e m a : wf_mem m -> halves e 64 (low (8 * 8) (rd e m a 8)) (low (8 * 8) (rd e m (a + 8) 8)) = rd e m a 16.
Proof. intros Hm. rewrite !rd_low by (auto; lia). apply (halves_rd e m a 8); auto; lia. Qed.
Lemma rd16_range e m a : wf_mem m -> 0 <= rd e m a 16 < 2 ^ 128.
Proof. intros Hm. apply (rd_range e m a 16); auto; lia. Qed.
Lemma wr_halves e m a v : meq (wr e (wr e m a 8 (half1 e 64 v)) (a + 8) 8 (half2 e 64 v)) (wr e m a 16 v).
Proof. eapply meq_trans; [apply (halves_wr e m a 8); lia|]. change (8 * 8) with 64. rewrite halves_half by lia. apply meq_refl. Qed.
Lemma cas16 e m a old : wf_mem m -> (rd e m a 8 = half1 e 64 old /\ rd e m (a + 8) 8 = half2 e 64 old) <-> rd e m a 16 = old.
Proof.
  intros Hm. rewrite <- (halves_inj e 64) by (try apply (rd_range e m _ 8); auto; lia). pose proof (halves_rd e m a 8 Hm ltac:(lia)) as Q.
  change (2 * 8) with 16 in Q. change (8 * 8) with 64 in Q. now rewrite Q.
Qed.
Lemma aal_load128_fn_atomic c b a t : atomic_fx (aa_e c) (aal_load128_fn c b a t) (load_spec (aa_e c) a 16).
Proof.
  unfold aal_load128_fn, aal_out. set (e := aa_e c). cbv zeta. destruct t as [o0 fe|o0 fe|ac re]; unfa.
  - start f r. destruct Hin as [Hs Fo]. stp. rewrite Hs. lin_at (rd e (o_mem o) a 16); [apply load_spec_refl|].
    stq. silq. stq. priv Fo. silq. done_q. apply some_eq. apply aal_out_half. now apply rd16_range.
  - start f r. destruct Hin as [Hs Fo]. stp; sil. stp. rewrite Hs. lin_at (rd e (o_mem o1) a 16); [apply load_spec_refl|].
    stq. silq. stq. priv Fo. silq. done_q. apply some_eq. apply aal_out_half. now apply rd16_range.
  - destruct (aa_lse c).
    + start f r. destruct Hin as (Ha & Fo & F1 & F2). stp. rewrite Ha, F1, F2. lin_at (rd e (o_mem o) a 16).
      { split; [reflexivity|]. destruct (Z.eqb_spec (halves e 64 0 0) (rd e (o_mem o) a 16)) as [E|E]; [|apply meq_refl].
        apply meq_sym. apply wr_rd_same; auto; [lia|]. rewrite <- E. destruct e; reflexivity. }
      stq. priv Fo. silq. done_q. apply some_eq. apply aal_out_half. now apply rd16_range.
    + loop_inv 0%nat (fun f : regs => f Src = a /\ f OutP = b_out b) Loop.
      { destruct Hi as [Hi Fo]. do 2 (stp; sil). stp. rewrite Hi. scp_case HE.
        - lin_at (rd e (o_mem o1) a 16).
          { split; [reflexivity|]. eapply meq_trans; [apply meq_sym, wr_rd_same with (a := a) (n := 16); auto; [lia|]|].
            - apply (rd_low e _ a 16); auto; lia.
            - apply meq_sym. rewrite <- HE1, <- HE2.
              eapply meq_trans; [apply (halves_wr e _ a 8); lia|]. rewrite (halves_rd e _ a 8) by (auto; lia). apply meq_refl. }
          stq. silq. stq. priv Fo. silq. done_q. apply some_eq. rewrite <- HE1, <- HE2. apply aal_out_rd; auto.
        - sil. stp. sil. apply weaken. apply IH; cbnx; [lts|auto]. }
      start f r. apply Loop. exact Hin.
Qed.
Lemma aal_store128_fn_atomic c b a v t : atomic_fx (aa_e c) (aal_store128_fn c b a v t) (store_spec (aa_e c) a 16 v).
Proof.
  unfold aal_store128_fn. set (e := aa_e c). cbv zeta. destruct t as [o0 fa fr|[[ac re] fe]|[[ac re] fe]]; unfa.
  - start f r. destruct Hin as (Ha & Hp). stp. priv Hp. sil. stp; sil. stp. rewrite Ha. cbn [fst snd]. rewrite halves_half by lia. lin_at tt; [apply meq_refl|].
    stq. silq. done_q. reflexivity.
  - start f r. destruct Hin as (Ha & Hp). stp. priv Hp. sil. stp. rewrite Ha. cbn [fst snd]. rewrite halves_half by lia. lin_at tt; [apply meq_refl|].
    stq. silq. done_q. reflexivity.
  - loop_inv 1%nat (fun f : regs => f Dst = a /\ f Val = half1 e 64 v /\ f ValHi = half2 e 64 v) Loop.
    { destruct Hi as (Fd & F1 & F2). do 2 (stp; sil). stp. rewrite Fd. scp_case HE.
      - lin_at tt. { rewrite F1, F2. apply wr_halves. }
        stq. silq. stq. silq. done_q. reflexivity.
      - sil. stp. sil. apply weaken. apply IH; cbnx; [lts|auto]. }
    start f r. destruct Hin as (Ha & Hp). stp. priv Hp. sil. apply weaken. apply Loop. cbnx. auto.
Qed.
Lemma aal_swap128_fn_atomic c b a v t : atomic_fx (aa_e c) (aal_swap128_fn c b a v t) (swap_spec (aa_e c) a 16 v).
Proof.
  unfold aal_swap128_fn, aal_out. set (e := aa_e c). destruct t as [[ac re] fe]. cbv zeta. destruct (aa_lse128 c); unfa.
  - start f r. destruct Hin as (Ha & Hp & Fo). stp. priv Hp. sil. stp. rewrite Ha. cbn [fst snd]. rewrite halves_half by lia.
    lin_at (rd e (o_mem o0) a 16); [split; [reflexivity|apply meq_refl]|].
    stq. silq. stq. priv Fo. silq. done_q. apply some_eq. apply aal_out_half. now apply rd16_range.
  - loop_inv 1%nat (fun f : regs => f Dst = a /\ f Val = half1 e 64 v /\ f ValHi = half2 e 64 v /\ f OutP = b_out b) Loop.
    { destruct Hi as (Fd & F1 & F2 & Fo). do 2 (stp; sil). stp. rewrite Fd. scp_case HE.
      - lin_at (rd e (o_mem o1) a 16). { split; [reflexivity|]. rewrite F1, F2. apply wr_halves. }
        stq. silq. stq. silq. stq. priv Fo. silq. done_q. apply some_eq. rewrite <- HE1, <- HE2. apply aal_out_rd; auto.
      - sil. stp. sil. apply weaken. apply IH; cbnx; [lts|auto 10]. }
    start f r. destruct Hin as (Ha & Hp & Fo). stp. priv Hp. sil. apply weaken. apply Loop. cbnx. auto.
Qed.
Lemma aal_cas128_fn_atomic c b a old new t : 0 <= old < 2 ^ 128 ->
  atomic_fx (aa_e c) (aal_cas128_fn c b a old new t) (cas_spec (aa_e c) a 16 old new).
Proof.
  intros Hold. unfold aal_cas128_fn, aal_out. set (e := aa_e c). destruct t as [[ac re] fe].
  pose proof (half1_range e 64 old ltac:(lia) Hold) as R1. pose proof (half2_range e 64 old ltac:(lia) Hold) as R2.
  destruct (aa_lse c); unfa.
  - start f r. destruct Hin as (Ha & Ho & Hv & Fo). stp. priv Ho. sil. stp. priv Hv. sil. do 2 (stp; sil). stp. rewrite Ha. cbn [fst snd]. rewrite !halves_half by lia.
    assert (forall m, wf_mem m -> (if b2z (low 64 (half1 e 64 (rd e m a 16)) =? low 64 (half1 e 64 old)) =? 1
        then b2z (low 64 (half2 e 64 (rd e m a 16)) =? low 64 (half2 e 64 old)) else 0) = b2z (rd e m a 16 =? old)) as CMP.
    { intros m Hm. rewrite half1_rd, half2_rd by auto. rewrite (low_id 64 (half1 _ _ old)), (low_id 64 (half2 _ _ old)) by auto.
      change 64 with (8 * 8) at 1 3. rewrite !rd_low by (auto; lia). pose proof (cas16 e m a old Hm) as Q.
      rewrite b2z_eqb1. destruct (Z.eqb_spec (rd e m a 8) (half1 e 64 old)), (Z.eqb_spec (rd e m (a + 8) 8) (half2 e 64 old)), (Z.eqb_spec (rd e m a 16) old); try reflexivity; tauto. }
    br_case HE.
    + lin_at (rd e (o_mem o3) a 16, true). { split; [reflexivity|]. cbn [fst snd]. split; [auto|apply meq_refl]. }
      do 4 (stq; silq). stq. priv Fo. silq. done_q. rewrite CMP by auto. rewrite <- HE, Z.eqb_refl. 
      apply (ret_cas_l_ok _ _ true). rewrite HE. apply aal_out_half. now apply rd16_range.
    + lin_at (rd e (o_mem o3) a 16, false). { apply cas_fail_spec; auto. }
      do 4 (stq; silq). stq. priv Fo. silq. done_q. rewrite CMP by auto.
      destruct (Z.eqb_spec (rd e (o_mem o3) a 16) old) as [X|X]; [congruence|].
      apply (ret_cas_l_ok _ _ false). apply aal_out_half. now apply rd16_range.
  - loop_inv 2%nat (fun f : regs => f Dst = a /\ f OutP = b_out b /\ (f Old = half1 e 64 old /\ f OldHi = half2 e 64 old) /\ f New = half1 e 64 new /\ f NewHi = half2 e 64 new) Loop.
    { destruct Hi as (Fd & Fp & (Fo1 & Fo2) & Fn1 & Fn2).
      do 2 (stp; sil). 
      set (V2 := if o_ok o0 then rd e (o_mem o0) (f Dst + 8) 8 else low (8 * 8) (o_junk o0)).
      assert (0 <= V2 < 2 ^ 64) as HV2. { unfold V2. destruct (o_ok o0); [apply (rd_range e _ _ 8); auto; lia|apply low_range; lia]. }
      do 4 (stp; sil). stp. rewrite Fd, Fo1, Fo2.
      rewrite (low_id 64 (half1 _ _ old)), (low_id 64 (half2 _ _ old)), (low_id 64 V2) by auto.
      assert (low 64 (rd e (o_mem o0) a 8) = rd e (o_mem o0) a 8) as -> by (apply (rd_low e _ a 8); auto; lia).
      set (V1 := rd e (o_mem o0) a 8).
      assert ((low 32 (1 - b2z (V1 =? half1 e 64 old) + (1 - b2z (V2 =? half2 e 64 old))) =? 0) = ((V1 =? half1 e 64 old) && (V2 =? half2 e 64 old))) as ->
        by (destruct (V1 =? half1 e 64 old), (V2 =? half2 e 64 old); reflexivity).
      destruct ((V1 =? half1 e 64 old) && (V2 =? half2 e 64 old)) eqn:EE.
      - apply andb_true_iff in EE. destruct EE as [E1 E2]. apply Z.eqb_eq in E1, E2.
        sil. stp; sil. stp. rewrite Fd. scp_case HE.
        + assert (rd e (o_mem o7) a 16 = old) as EQ. { refine (proj1 (cas16 e (o_mem o7) a old _) _); [auto|split; congruence]. }
          lin_at (rd e (o_mem o7) a 16, true). { split; [reflexivity|]. cbn [fst snd]. split; [auto|]. rewrite Fn1, Fn2. apply wr_halves. }
          do 3 (stq; silq). stq. priv Fp. silq. done_q. apply (ret_cas0_l_ok _ _ true). rewrite <- HE1, <- HE2. apply aal_out_rd; auto.
        + sil. stp; sil. apply weaken. apply IH; cbnx; [lts|auto 10].
      - sil. stp. rewrite Fd. scp_case HE.
        + assert (rd e (o_mem o6) a 16 <> old) as NE.
          { intros X. pose proof (proj2 (cas16 e (o_mem o6) a old Ho6) X) as [X1 X2]. rewrite HE1 in X1. rewrite HE2 in X2.
            rewrite X1, X2, !Z.eqb_refl in EE. discriminate. }
          lin_at (rd e (o_mem o6) a 16, false).
          { split; [reflexivity|]. cbn [fst snd]. split; [auto|]. rewrite <- HE1, <- HE2.
            eapply meq_trans; [apply (halves_wr e _ a 8); lia|]. apply (wr_rd_same e _ a 16); auto; [lia|].
            rewrite (halves_rd e _ a 8) by (auto; lia). apply (rd_low e _ a 16); auto; lia. }
          do 5 (stq; silq). stq. priv Fp. silq. done_q. apply (ret_cas0_l_ok _ _ false). rewrite <- HE1, <- HE2. apply aal_out_rd; auto.
        + sil. stp; sil. apply weaken. apply IH; cbnx; [lts|auto 10]. }
    start f r. destruct Hin as (Ha & Ho & Hv & Fp). stp. priv Hv. sil. stp. priv Ho. sil. apply weaken. apply Loop. cbnx. auto 10.
Qed.

(* ---- what the trait implementations do ---- *)
Theorem aal_load_atomic c b n o a f : aal_load c b n o a = Impl f -> atomic_fx (aa_e c) f (load_spec (aa_e c) a n).
Proof.
  unfold aal_load. disp.
  - destruct (aa_sizes n E). apply aal_load_fn_atomic; auto.
  - beqs. subst n. apply aal_load128_fn_atomic.
Qed.
Theorem aal_store_atomic c b n o a v f : aal_store c b n o a v = Impl f -> atomic_fx (aa_e c) f (store_spec (aa_e c) a n v).
Proof.
  unfold aal_store. disp.
  - destruct (aa_sizes n E). apply aal_store_fn_atomic; auto.
  - beqs. subst n. apply aal_store128_fn_atomic.
Qed.
Theorem aal_swap_atomic c b n o a v f : aal_swap c b n o a v = Impl f -> atomic_fx (aa_e c) f (swap_spec (aa_e c) a n v).
Proof.
  unfold aal_swap. disp.
  - destruct (aa_sizes n E). apply aal_swap_fn_atomic; auto.
  - beqs. subst n. apply aal_swap128_fn_atomic.
Qed.
Theorem aal_cas_atomic c b n os of a old new f : 0 <= old < 2 ^ (8 * n) ->
  aal_cas c b n os of a old new = Impl f -> atomic_fx (aa_e c) f (cas_spec (aa_e c) a n old new).
Proof.
  intros Ho. unfold aal_cas. disp.
  - destruct (aa_sizes n E). apply aal_cas_fn_atomic; auto.
  - beqs. subst n. apply aal_cas128_fn_atomic; auto.
Qed.
Theorem aal_casw_atomic c b n os of a old new f : 0 <= old < 2 ^ (8 * n) ->
  aal_casw c b n os of a old new = Impl f -> atomic_fx (aa_e c) f (casw_spec (aa_e c) a n old new).
Proof.
  intros Ho. unfold aal_casw. destruct (aa_word n) eqn:E; [destruct (aa_lse c) eqn:E0|].
  - intros H. apply casw_of_cas. eapply aal_cas_atomic; eauto.
  - disp. destruct (aa_sizes n E). apply aal_casw_fn_atomic; auto.
  - intros H. apply casw_of_cas. eapply aal_cas_atomic; eauto.
Qed.
