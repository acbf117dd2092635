From Verif Require Import Sym Arch_arm Fields Wide.

Ltac silq ::= cbn [b2z Z.eqb Pos.eqb negb]; split; [reflexivity|].
Ltac sil ::= cbn [b2z Z.eqb Pos.eqb negb]; left; split; [reflexivity|].
Ltac unfa := unfold ar_clrex, ar_strex, ar_strexd, ar_ldrexd, cmp0, orrs, cmpz, bne_z, beq_z, dmb.

Lemma ar_load_fn_atomic e n a t : 0 < n -> atomic_fx e (ar_load_fn n a t) (load_spec e a n).
Proof.
  intros Hn. unfold ar_load_fn. start f r.
  stp. rewrite Hin, Z.add_0_r. lin_at (rd e (o_mem o) a n); [apply load_spec_refl|].
  stq. silq. done_q. rewrite rd_low by (auto; lia). reflexivity.
Qed.
Lemma ar_store_fn_atomic e n a v t : 0 < n -> atomic_fx e (ar_store_fn n a v t) (store_spec e a n v).
Proof.
  intros Hn. unfold ar_store_fn. destruct t as [re fe]. start f r. destruct Hin as [Ha Hv].
  stp; sil. stp. rewrite Ha, Z.add_0_r. lin_at tt; [eapply wr_opnd; eauto; lia|]. stq. silq. done_q. reflexivity.
Qed.
Lemma ar_swap_fn_atomic e n a v t : 0 < n -> atomic_fx e (ar_swap_fn n a v t) (swap_spec e a n v).
Proof.
  intros Hn. destruct t as [fa fr]. unfold ar_swap_fn. unfa.
  loop_inv 1%nat (fun f : regs => f Dst = a /\ opnd 32 (8 * n) v (f Val)) Loop.
  { destruct Hi as [Fd Fv]. go. stp. rewrite Fd. sc_case HE.
    - lin_at (rd e (o_mem o1) a n). { split; [reflexivity|]. eapply wr_opnd; eauto; lia. }
      do 3 (stq; silq). done_q. rewrite <- HE. now rewrite rd_low by (auto; lia).
    - sil. do 2 (stp; sil). apply weaken. apply IH; cbnx; [lts|auto]. }
  start f r. stp; sil. apply weaken. apply Loop. exact Hin.
Qed.
Lemma ar_ret_ok x v b : x = v -> ar_ret x (b2z (negb b)) = Some (v, b).
Proof. intros <-. destruct b; reflexivity. Qed.
Lemma ar_sizes n : ar_word n = true -> 0 < n /\ 8 * n <= 32.
Proof. unfold ar_word. intros H. beqs. repeat (destruct H as [H|H]; beqs); lia. Qed.
Lemma low_small k n x : 0 <= n <= k -> 0 <= x < 2 ^ n -> low k x = x.
Proof. intros Hn Hx. apply low_id. split; [lia|]. eapply Z.lt_le_trans; [apply Hx|]. apply Z.pow_le_mono_r; lia. Qed.
Lemma ar_cmp_ok e m a n old : wf_mem m -> ar_word n = true -> 0 <= old < 2 ^ (8 * n) ->
  (low 32 (rd e m a n) =? low 32 old) = (rd e m a n =? old).
Proof.
  intros Hm Wn Ho. destruct (ar_sizes n Wn) as [Hn Hw]. rewrite (low_small 32 (8 * n) old), (low_small 32 (8 * n)); auto; try lia.
  apply rd_range; auto; lia.
Qed.
Lemma ar_cas_fn_atomic e c n a old new t : ar_word n = true -> 0 <= old < 2 ^ (8 * n) ->
  atomic_fx e (ar_cas_fn c n a old new t) (cas_spec e a n old new).
Proof.
  intros Wn Hold. destruct (ar_sizes n Wn) as [Hn Hw]. unfold ar_cas_fn . unfa. destruct t as [fs ff|ff|ff].
  - loop_inv 0%nat (fun f : regs => f Dst = a /\ f Old = old /\ opnd 32 (8 * n) new (f New)) Loop.
    { destruct Hi as (Fd & Fo & Fv). do 3 (stp; sil). stp. rewrite Fd, Fo, ar_cmp_ok by auto.
      destruct (Z.eqb_spec (rd e (o_mem o0) a n) old) as [H|H]; cbn [b2z Z.eqb].
      - sil. stp. rewrite Fd. sc_case HE.
        + lin_at (rd e (o_mem o3) a n, true). { split; [reflexivity|]. cbn [fst snd]. split; [congruence|]. eapply wr_opnd; eauto; lia. }
          do 5 (stq; silq). done_q. rewrite <- HE. apply (ar_ret_ok _ _ true). apply rd_low; auto; lia.
        + sil. do 2 (stp; sil). apply weaken. apply IH; cbnx; [lts|auto].
      - sil. commit_at (o_mem o0) (rd e (o_mem o0) a n, false). { apply cas_fail_spec; auto. }
        do 5 (stq; silq); done_q; apply (ar_ret_ok _ _ false); apply rd_low; auto; lia. }
    start f r. apply Loop. exact Hin.
  - loop_inv_r 4%nat (Some [(a, n, old)]) (fun f : regs => f Dst = a /\ f Old = old /\ opnd 32 (8 * n) new (f New) /\ f Out = old) Loop.
    { destruct Hi as (Fd & Fo & Fv & Fu). stp; sil. stp. rewrite Fd. sc_case HE.
      - lin_at (rd e (o_mem o0) a n, true). { split; [reflexivity|]. cbn [fst snd]. split; [congruence|]. eapply wr_opnd; eauto; lia. }
        do 3 (stq; silq). done_q. rewrite HE. apply (ar_ret_ok _ _ true). rewrite Fu. apply low_id; auto.
      - sil. do 4 (stp; sil). stp. rewrite Fd, Fo, ar_cmp_ok by auto.
        destruct (Z.eqb_spec (rd e (o_mem o3) a n) old) as [H|H]; cbn [b2z Z.eqb negb].
        + sil. apply weaken. rewrite H. apply IH; cbnx; [lts|auto].
        + sil. commit_at (o_mem o3) (rd e (o_mem o3) a n, false). { apply cas_fail_spec; auto. }
          do 5 (stq; silq); done_q; apply (ar_ret_ok _ _ false); apply rd_low; auto; lia. }
    start f r. destruct Hin as (Fd & Fo & Fv). do 2 (stp; sil). stp. rewrite Fd, Fo, ar_cmp_ok by auto.
    destruct (Z.eqb_spec (rd e (o_mem o) a n) old) as [H|H]; cbn [b2z Z.eqb].
    + sil. stp; sil. apply weaken. rewrite H. apply Loop; cbnx; auto.
    + sil. commit_at (o_mem o) (rd e (o_mem o) a n, false). { apply cas_fail_spec; auto. }
      do 5 (stq; silq); done_q; apply (ar_ret_ok _ _ false); apply rd_low; auto; lia.
  - loop_inv_r 4%nat (Some [(a, n, old)]) (fun f : regs => f Dst = a /\ f Old = old /\ opnd 32 (8 * n) new (f New) /\ f Out = old) Loop.
    { destruct Hi as (Fd & Fo & Fv & Fu). stp; sil. stp. rewrite Fd. sc_case HE.
      - lin_at (rd e (o_mem o0) a n, true). { split; [reflexivity|]. cbn [fst snd]. split; [congruence|]. eapply wr_opnd; eauto; lia. }
        do 5 (stq; silq). done_q. rewrite HE. apply (ar_ret_ok _ _ true). rewrite Fu. apply low_id; auto.
      - sil. do 4 (stp; sil). stp. rewrite Fd, Fo, ar_cmp_ok by auto.
        destruct (Z.eqb_spec (rd e (o_mem o3) a n) old) as [H|H]; cbn [b2z Z.eqb negb].
        + sil. apply weaken. rewrite H. apply IH; cbnx; [lts|auto].
        + sil. commit_at (o_mem o3) (rd e (o_mem o3) a n, false). { apply cas_fail_spec; auto. }
          do 6 (stq; silq); done_q; apply (ar_ret_ok _ _ false); apply rd_low; auto; lia. }
    start f r. destruct Hin as (Fd & Fo & Fv). do 2 (stp; sil). stp. rewrite Fd, Fo, ar_cmp_ok by auto.
    destruct (Z.eqb_spec (rd e (o_mem o) a n) old) as [H|H]; cbn [b2z Z.eqb].
    + sil. stp; sil. apply weaken. rewrite H. apply Loop; cbnx; auto.
    + sil. commit_at (o_mem o) (rd e (o_mem o) a n, false). { apply cas_fail_spec; auto. }
      do 6 (stq; silq); done_q; apply (ar_ret_ok _ _ false); apply rd_low; auto; lia.
Qed.
Lemma ar_casw_fn_atomic e c n a old new t : ar_word n = true -> 0 <= old < 2 ^ (8 * n) ->
  atomic_fx e (ar_casw_fn c n a old new t) (casw_spec e a n old new).
Proof.
  intros Wn Hold. destruct (ar_sizes n Wn) as [Hn Hw]. unfold ar_casw_fn . unfa.
  destruct t as [fa fr|fr|fr]; start f r; destruct Hin as (Fd & Fo & Fv);
  do 2 (stp; sil); stp; rewrite Fd, Fo, ar_cmp_ok by auto;
  (destruct (Z.eqb_spec (rd e (o_mem o) a n) old) as [H|H]; cbn [b2z Z.eqb];
  [ sil; stp; sil; stp; rewrite Fd; sc_case HE;
    [ lin_at (rd e (o_mem o3) a n, true); [split; [reflexivity|]; cbn [fst snd]; split; [congruence|]; eapply wr_opnd; eauto; lia|];
      goq; done_q; rewrite <- HE; apply (ar_ret_ok _ _ true); apply rd_low; auto; lia
    | sil; commit_at (o_mem o) (rd e (o_mem o) a n, false); [apply casw_fail_spec|];
      goq; done_q; apply (ar_ret_ok _ _ false); apply rd_low; auto; lia]
  | sil; commit_at (o_mem o) (rd e (o_mem o) a n, false); [apply casw_fail_spec|];
    goq; done_q; apply (ar_ret_ok _ _ false); apply rd_low; auto; lia ]).
Qed.

(* ---- 64-bit ---- *)
Lemma ar_first e : pair_lo_first A_arm e = true. Proof. destruct e; reflexivity. Qed.
Lemma ar_join_rd e m a : wf_mem m -> ar_join e (rd e m a 4) (rd e m (a + 4) 4) = rd e m a 8.
Proof.
  intros Hm. unfold ar_join. rewrite lo_first_join; [apply (halves_rd e m a 4); auto; lia|apply ar_first|lia| |];
  apply (rd_range e m _ 4); auto; lia.
Qed.
Lemma ar_pre e v rl rh f : ar_pair e v rl rh f -> halves e 32 (f rl) (f rh) = v.
Proof. intros [-> ->]. destruct (lo_first A_arm e 32 v (ar_first e)) as [-> ->]. apply halves_half; lia. Qed.
Lemma ar_wr e m a v rl rh f : ar_pair e v rl rh f -> meq (wr e (wr e m a 4 (f rl)) (a + 4) 4 (f rh)) (wr e m a 8 v).
Proof. intros H. eapply meq_trans; [apply (halves_wr e m a 4); lia|]. rewrite (ar_pre e v) by auto. apply meq_refl. Qed.
Lemma ar_cas8 e m a old rl rh f : wf_mem m -> ar_pair e old rl rh f ->
  (rd e m a 4 = f rl /\ rd e m (a + 4) 4 = f rh) <-> rd e m a 8 = old.
Proof.
  intros Hm [-> ->]. destruct (lo_first A_arm e 32 old (ar_first e)) as [-> ->].
  rewrite <- (halves_inj e 32) by (try apply (rd_range e m _ 4); auto; lia). pose proof (halves_rd e m a 4 Hm ltac:(lia)) as Q.
  change (2 * 4) with 8 in Q. change (8 * 4) with 32 in Q. now rewrite Q.
Qed.
Lemma ar_eor x y z w : (Z.lor (Z.lxor x y) (Z.lxor z w) =? 0) = ((x =? y) && (z =? w)).
Proof.
  apply eq_true_iff_eq. rewrite Z.eqb_eq, andb_true_iff, !Z.eqb_eq, Z.lor_eq_0_iff, !Z.lxor_eq_0_iff. reflexivity.
Qed.
Lemma ar_cmp8 e m a old f : wf_mem m -> ar_pair e old Old OldHi f ->
  (Z.lor (Z.lxor (rd e m a 4) (f Old)) (Z.lxor (rd e m (a + 4) 4) (f OldHi)) =? 0) = (rd e m a 8 =? old).
Proof.
  intros Hm Ho. rewrite ar_eor. apply eq_true_iff_eq. rewrite andb_true_iff, !Z.eqb_eq.
  exact (ar_cas8 e m a old Old OldHi f Hm Ho).
Qed.
Lemma ar_load64_fn_atomic c a t : atomic_fx (ar_e c) (ar_load64_fn c a t) (load_spec (ar_e c) a 8).
Proof.
  unfold ar_load64_fn. set (e := ar_e c). unfa. start f r. stp. rewrite Hin.
  lin_at (rd e (o_mem o) a 8); [apply load_spec_refl|].
  do 2 (stq; silq); done_q; apply some_eq; apply ar_join_rd; auto.
Qed.
Lemma ar_store64_fn_atomic c a v t : atomic_fx (ar_e c) (ar_store64_fn c a v t) (store_spec (ar_e c) a 8 v).
Proof.
  unfold ar_store64_fn. set (e := ar_e c). unfa.
  loop_inv 1%nat (fun f : regs => f Dst = a /\ ar_pair e v Val ValHi f) Loop.
  { destruct Hi as [Fd Fp]. do 2 (stp; sil). stp. rewrite Fd. scp_case HE.
    - lin_at tt. { apply (ar_wr e _ a v Val ValHi f); auto. }
      do 3 (stq; silq). done_q. reflexivity.
    - sil. do 2 (stp; sil). apply weaken. apply IH; cbnx; [lts|auto]. }
  start f r. stp; sil. apply weaken. apply Loop. exact Hin.
Qed.
Lemma ar_swap64_fn_atomic c a v t : atomic_fx (ar_e c) (ar_swap64_fn c a v t) (swap_spec (ar_e c) a 8 v).
Proof.
  unfold ar_swap64_fn. set (e := ar_e c). unfa.
  loop_inv 1%nat (fun f : regs => f Dst = a /\ ar_pair e v Val ValHi f) Loop.
  { destruct Hi as [Fd Fp]. do 2 (stp; sil). stp. rewrite Fd. scp_case HE.
    - lin_at (rd e (o_mem o1) a 8). { split; [reflexivity|]. apply (ar_wr e _ a v Val ValHi f); auto. }
      do 3 (stq; silq). done_q. apply some_eq. rewrite <- HE1, <- HE2. apply ar_join_rd; auto.
    - sil. do 2 (stp; sil). apply weaken. apply IH; cbnx; [lts|auto]. }
  start f r. stp; sil. apply weaken. apply Loop. exact Hin.
Qed.
Lemma ar_cas64_fn_atomic c a old new t : atomic_fx (ar_e c) (ar_cas64_fn c a old new t) (cas_spec (ar_e c) a 8 old new).
Proof.
  unfold ar_cas64_fn. set (e := ar_e c). unfa. destruct t as [fs ff|ff|ff].
  - loop_inv 0%nat (fun f : regs => f Dst = a /\ ar_pair e old Old OldHi f /\ ar_pair e new New NewHi f) Loop.
    { destruct Hi as (Fd & Fo & Fv). do 5 (stp; sil). stp. rewrite Fd, (ar_cmp8 _ _ _ old) by auto.
      destruct (Z.eqb_spec (rd e (o_mem o0) a 8) old) as [H|H]; cbn [b2z Z.eqb].
      - sil. stp. rewrite Fd. scp_case HE.
        + assert (rd e (o_mem o5) a 8 = rd e (o_mem o0) a 8) as EQ by (apply (rd2_eq e _ _ a 4); auto; lia).
          lin_at (rd e (o_mem o5) a 8, true). { split; [reflexivity|]. cbn [fst snd]. split; [congruence|]. apply (ar_wr e _ a new New NewHi f); auto. }
          do 5 (stq; silq). done_q. apply (ar_ret_ok _ _ true). rewrite EQ. apply ar_join_rd; auto.
        + sil. do 2 (stp; sil). apply weaken. apply IH; cbnx; [lts|auto].
      - sil. commit_at (o_mem o0) (rd e (o_mem o0) a 8, false). { apply cas_fail_spec; auto. }
        do 5 (stq; silq); done_q; apply (ar_ret_ok _ _ false); apply ar_join_rd; auto. }
    start f r. apply Loop. exact Hin.
  - loop_inv_rm 6%nat (fun m => Some [(a, 4, rd e m a 4); (a + 4, 4, rd e m (a + 4) 4)])
      (fun m (f : regs) => rd e m a 8 = old /\ f Dst = a /\ ar_pair e old Old OldHi f /\ ar_pair e new New NewHi f /\ f Out = rd e m a 4 /\ f OutHi = rd e m (a + 4) 4) Loop.
    { destruct Hi as (Em & Fd & Fo & Fv & Fu & Fu').
      stp; sil. stp. rewrite Fd. scp_case HE.
      - assert (rd e (o_mem o0) a 8 = rd e m a 8) as EQ by (apply (rd2_eq e _ _ a 4); auto; lia).
        lin_at (rd e (o_mem o0) a 8, true). { split; [reflexivity|]. cbn [fst snd]. split; [congruence|]. apply (ar_wr e _ a new New NewHi f); auto. }
        do 3 (stq; silq). done_q. apply (ar_ret_ok _ _ true). rewrite EQ, Fu, Fu'. apply ar_join_rd; auto.
      - sil. do 6 (stp; sil). stp. rewrite Fd, (ar_cmp8 _ _ _ old) by auto.
        destruct (Z.eqb_spec (rd e (o_mem o3) a 8) old) as [H|H]; cbn [b2z Z.eqb negb].
        + sil. apply weaken. apply IH; cbnx; [lts|auto|repeat split; auto; apply Fo || apply Fv].
        + sil. commit_at (o_mem o3) (rd e (o_mem o3) a 8, false). { apply cas_fail_spec; auto. }
          do 5 (stq; silq); done_q; apply (ar_ret_ok _ _ false); apply ar_join_rd; auto. }
    start f r. destruct Hin as (Fd & Fo & Fv). do 4 (stp; sil). stp. rewrite Fd, (ar_cmp8 _ _ _ old) by auto.
    destruct (Z.eqb_spec (rd e (o_mem o) a 8) old) as [H|H]; cbn [b2z Z.eqb].
    + sil. stp; sil. apply weaken. apply (Loop _ _ (o_mem o)); cbnx; [auto|repeat split; auto; apply Fo || apply Fv].
    + sil. commit_at (o_mem o) (rd e (o_mem o) a 8, false). { apply cas_fail_spec; auto. }
      do 5 (stq; silq); done_q; apply (ar_ret_ok _ _ false); apply ar_join_rd; auto.
  - loop_inv_rm 6%nat (fun m => Some [(a, 4, rd e m a 4); (a + 4, 4, rd e m (a + 4) 4)])
      (fun m (f : regs) => rd e m a 8 = old /\ f Dst = a /\ ar_pair e old Old OldHi f /\ ar_pair e new New NewHi f /\ f Out = rd e m a 4 /\ f OutHi = rd e m (a + 4) 4) Loop.
    { destruct Hi as (Em & Fd & Fo & Fv & Fu & Fu').
      stp; sil. stp. rewrite Fd. scp_case HE.
      - assert (rd e (o_mem o0) a 8 = rd e m a 8) as EQ by (apply (rd2_eq e _ _ a 4); auto; lia).
        lin_at (rd e (o_mem o0) a 8, true). { split; [reflexivity|]. cbn [fst snd]. split; [congruence|]. apply (ar_wr e _ a new New NewHi f); auto. }
        do 5 (stq; silq). done_q. apply (ar_ret_ok _ _ true). rewrite EQ, Fu, Fu'. apply ar_join_rd; auto.
      - sil. do 6 (stp; sil). stp. rewrite Fd, (ar_cmp8 _ _ _ old) by auto.
        destruct (Z.eqb_spec (rd e (o_mem o3) a 8) old) as [H|H]; cbn [b2z Z.eqb negb].
        + sil. apply weaken. apply IH; cbnx; [lts|auto|repeat split; auto; apply Fo || apply Fv].
        + sil. commit_at (o_mem o3) (rd e (o_mem o3) a 8, false). { apply cas_fail_spec; auto. }
          do 6 (stq; silq); done_q; apply (ar_ret_ok _ _ false); apply ar_join_rd; auto. }
    start f r. destruct Hin as (Fd & Fo & Fv). do 4 (stp; sil). stp. rewrite Fd, (ar_cmp8 _ _ _ old) by auto.
    destruct (Z.eqb_spec (rd e (o_mem o) a 8) old) as [H|H]; cbn [b2z Z.eqb].
    + sil. stp; sil. apply weaken. apply (Loop _ _ (o_mem o)); cbnx; [auto|repeat split; auto; apply Fo || apply Fv].
    + sil. commit_at (o_mem o) (rd e (o_mem o) a 8, false). { apply cas_fail_spec; auto. }
      do 6 (stq; silq); done_q; apply (ar_ret_ok _ _ false); apply ar_join_rd; auto.
Qed.
Lemma ar_casw64_fn_atomic c a old new t : atomic_fx (ar_e c) (ar_casw64_fn c a old new t) (casw_spec (ar_e c) a 8 old new).
Proof.
  unfold ar_casw64_fn. set (e := ar_e c). unfa.
  destruct t as [fa fr|fr|fr]; start f r; destruct Hin as (Fd & Fo & Fv);
  do 4 (stp; sil); stp; rewrite Fd, (ar_cmp8 _ _ _ old) by auto;
  (destruct (Z.eqb_spec (rd e (o_mem o) a 8) old) as [H|H]; cbn [b2z Z.eqb];
  [ sil; stp; sil; stp; rewrite Fd; scp_case HE;
    [ assert (rd e (o_mem o5) a 8 = rd e (o_mem o) a 8) as EQ by (apply (rd2_eq e _ _ a 4); auto; lia);
      lin_at (rd e (o_mem o5) a 8, true); [split; [reflexivity|]; cbn [fst snd]; split; [congruence|]; apply (ar_wr e _ a new New NewHi f); auto|];
      goq; done_q; apply (ar_ret_ok _ _ true); rewrite EQ; apply ar_join_rd; auto
    | sil; commit_at (o_mem o) (rd e (o_mem o) a 8, false); [apply casw_fail_spec|];
      goq; done_q; apply (ar_ret_ok _ _ false); apply ar_join_rd; auto]
  | sil; commit_at (o_mem o) (rd e (o_mem o) a 8, false); [apply casw_fail_spec|];
    goq; done_q; apply (ar_ret_ok _ _ false); apply ar_join_rd; auto ]).
Qed.

(* ---- what the trait implementations do ---- *)
Theorem ar_load_atomic c n o a f : ar_load c n o a = Impl f -> atomic_fx (ar_e c) f (load_spec (ar_e c) a n).
Proof.
  unfold ar_load. disp.
  - destruct (ar_sizes n E). apply ar_load_fn_atomic; auto.
  - beqs. destruct E0 as [E0 _]. beqs. subst n. apply ar_load64_fn_atomic.
Qed.
Theorem ar_store_atomic c n o a v f : ar_store c n o a v = Impl f -> atomic_fx (ar_e c) f (store_spec (ar_e c) a n v).
Proof.
  unfold ar_store. disp.
  - destruct (ar_sizes n E). apply ar_store_fn_atomic; auto.
  - beqs. destruct E0 as [E0 _]. beqs. subst n. apply ar_store64_fn_atomic.
Qed.
Theorem ar_swap_atomic c n o a v f : ar_swap c n o a v = Impl f -> atomic_fx (ar_e c) f (swap_spec (ar_e c) a n v).
Proof.
  unfold ar_swap. disp.
  - destruct (ar_sizes n E). apply ar_swap_fn_atomic; auto.
  - beqs. destruct E0 as [E0 _]. beqs. subst n. apply ar_swap64_fn_atomic.
Qed.
Theorem ar_cas_atomic c n os of a old new f : 0 <= old < 2 ^ (8 * n) ->
  ar_cas c n os of a old new = Impl f -> atomic_fx (ar_e c) f (cas_spec (ar_e c) a n old new).
Proof.
  intros Ho. unfold ar_cas. disp.
  - apply ar_cas_fn_atomic; auto.
  - beqs. destruct E0 as [E0 _]. beqs. subst n. apply ar_cas64_fn_atomic.
Qed.
Theorem ar_casw_atomic c n os of a old new f : 0 <= old < 2 ^ (8 * n) ->
  ar_casw c n os of a old new = Impl f -> atomic_fx (ar_e c) f (casw_spec (ar_e c) a n old new).
Proof.
  intros Ho. unfold ar_casw. disp.
  - apply ar_casw_fn_atomic; auto.
  - beqs. destruct E0 as [E0 _]. beqs. subst n. apply ar_casw64_fn_atomic.
Qed.
