From Verif Require Import Sym Arch_armv8 Fields Wide P_arm.

Ltac unfb := unfold a8_stex, a8_stexd, a8_ldexd, a8_mov1, cmp0, orrs, cmpz, bne_z, beq_z.

Lemma a8_load_fn_atomic e n a t : 0 < n -> atomic_fx e (a8_load_fn n a t) (load_spec e a n).
Proof.
  intros Hn. unfold a8_load_fn. start f r.
  stp. rewrite Hin, Z.add_0_r. lin_at (rd e (o_mem o) a n); [apply load_spec_refl|].
  done_q. rewrite rd_low by (auto; lia). reflexivity.
Qed.
Lemma a8_store_fn_atomic e n a v t : 0 < n -> atomic_fx e (a8_store_fn n a v t) (store_spec e a n v).
Proof.
  intros Hn. unfold a8_store_fn. start f r. destruct Hin as [Ha Hv].
  stp. rewrite Ha, Z.add_0_r. lin_at tt; [eapply wr_opnd; eauto; lia|]. done_q. reflexivity.
Qed.
Lemma a8_swap_fn_atomic e n a v t : 0 < n -> atomic_fx e (a8_swap_fn n a v t) (swap_spec e a n v).
Proof.
  intros Hn. destruct t as [fa fr]. unfold a8_swap_fn. unfb.
  loop_inv 0%nat (fun f : regs => f Dst = a /\ opnd 32 (8 * n) v (f Val)) Loop.
  { destruct Hi as [Fd Fv]. go. stp. rewrite Fd. sc_case HE.
    - lin_at (rd e (o_mem o1) a n). { split; [reflexivity|]. eapply wr_opnd; eauto; lia. }
      do 2 (stq; silq). done_q. rewrite <- HE. now rewrite rd_low by (auto; lia).
    - sil. do 2 (stp; sil). apply weaken. apply IH; cbnx; [lts|auto]. }
  start f r. apply Loop. exact Hin.
Qed.
Lemma a8_cas_fn_atomic e m n a old new t : ar_word n = true -> 0 <= old < 2 ^ (8 * n) ->
  atomic_fx e (a8_cas_fn m n a old new t) (cas_spec e a n old new).
Proof.
  intros Wn Hold. destruct (ar_sizes n Wn) as [Hn Hw]. unfold a8_cas_fn. unfb.
  loop_inv 0%nat (fun f : regs => f Dst = a /\ f Old = old /\ opnd 32 (8 * n) new (f New)) Loop.
  { destruct Hi as (Fd & Fo & Fv). do 3 (stp; sil). stp. rewrite Fd, Fo, ar_cmp_ok by auto.
    destruct (Z.eqb_spec (rd e (o_mem o0) a n) old) as [H|H]; cbn [b2z Z.eqb].
    - sil. stp. rewrite Fd. sc_case HE.
      + lin_at (rd e (o_mem o3) a n, true). { split; [reflexivity|]. cbn [fst snd]. split; [congruence|]. eapply wr_opnd; eauto; lia. }
        do 4 (stq; silq). done_q. rewrite <- HE. apply (ar_ret_ok _ _ true). apply rd_low; auto; lia.
      + sil. do 2 (stp; sil). apply weaken. apply IH; cbnx; [lts|auto].
    - sil. commit_at (o_mem o0) (rd e (o_mem o0) a n, false). { apply cas_fail_spec; auto. }
      do 4 (stq; silq); done_q; apply (ar_ret_ok _ _ false); apply rd_low; auto; lia. }
  start f r. apply Loop. exact Hin.
Qed.
Lemma a8_casw_fn_atomic e m n a old new t : ar_word n = true -> 0 <= old < 2 ^ (8 * n) ->
  atomic_fx e (a8_casw_fn m n a old new t) (casw_spec e a n old new).
Proof.
  intros Wn Hold. destruct (ar_sizes n Wn) as [Hn Hw]. unfold a8_casw_fn. unfb.
  start f r; destruct Hin as (Fd & Fo & Fv).
  do 2 (stp; sil); stp; rewrite Fd, Fo, ar_cmp_ok by auto.
  destruct (Z.eqb_spec (rd e (o_mem o) a n) old) as [H|H]; cbn [b2z Z.eqb].
  - sil; stp; rewrite Fd; sc_case HE.
    + lin_at (rd e (o_mem o2) a n, true); [split; [reflexivity|]; cbn [fst snd]; split; [congruence|]; eapply wr_opnd; eauto; lia|].
      goq; done_q; rewrite <- HE; apply (ar_ret_ok _ _ true); apply rd_low; auto; lia.
    + sil; commit_at (o_mem o) (rd e (o_mem o) a n, false); [apply casw_fail_spec|].
      goq; done_q; apply (ar_ret_ok _ _ false); apply rd_low; auto; lia.
  - sil; commit_at (o_mem o) (rd e (o_mem o) a n, false); [apply casw_fail_spec|].
    goq; done_q; apply (ar_ret_ok _ _ false); apply rd_low; auto; lia.
Qed.
Lemma a8_load64_fn_atomic c a t : atomic_fx (a8_e c) (a8_load64_fn c a t) (load_spec (a8_e c) a 8).
Proof.
  unfold a8_load64_fn. set (e := a8_e c). unfb. start f r. stp. rewrite Hin.
  lin_at (rd e (o_mem o) a 8); [apply load_spec_refl|].
  stq; silq; done_q; apply some_eq; apply ar_join_rd; auto.
Qed.
Lemma a8_store64_fn_atomic c a v t : atomic_fx (a8_e c) (a8_store64_fn c a v t) (store_spec (a8_e c) a 8 v).
Proof.
  unfold a8_store64_fn. set (e := a8_e c). unfb.
  loop_inv 0%nat (fun f : regs => f Dst = a /\ ar_pair e v Val ValHi f) Loop.
  { destruct Hi as [Fd Fp]. do 2 (stp; sil). stp. rewrite Fd. scp_case HE.
    - lin_at tt. { apply (ar_wr e _ a v Val ValHi f); auto. }
      do 2 (stq; silq). done_q. reflexivity.
    - sil. do 2 (stp; sil). apply weaken. apply IH; cbnx; [lts|auto]. }
  start f r. apply Loop. exact Hin.
Qed.
Lemma a8_swap64_fn_atomic c a v t : atomic_fx (a8_e c) (a8_swap64_fn c a v t) (swap_spec (a8_e c) a 8 v).
Proof.
  unfold a8_swap64_fn. set (e := a8_e c). unfb.
  loop_inv 0%nat (fun f : regs => f Dst = a /\ ar_pair e v Val ValHi f) Loop.
  { destruct Hi as [Fd Fp]. do 2 (stp; sil). stp. rewrite Fd. scp_case HE.
    - lin_at (rd e (o_mem o1) a 8). { split; [reflexivity|]. apply (ar_wr e _ a v Val ValHi f); auto. }
      do 2 (stq; silq). done_q. apply some_eq. rewrite <- HE1, <- HE2. apply ar_join_rd; auto.
    - sil. do 2 (stp; sil). apply weaken. apply IH; cbnx; [lts|auto]. }
  start f r. apply Loop. exact Hin.
Qed.
Lemma a8_cas64_fn_atomic c a old new t : atomic_fx (a8_e c) (a8_cas64_fn c a old new t) (cas_spec (a8_e c) a 8 old new).
Proof.
  unfold a8_cas64_fn. set (e := a8_e c). unfb.
  loop_inv 0%nat (fun f : regs => f Dst = a /\ ar_pair e old Old OldHi f /\ ar_pair e new New NewHi f) Loop.
  { destruct Hi as (Fd & Fo & Fv). do 5 (stp; sil). stp. rewrite Fd, (ar_cmp8 _ _ _ old) by auto.
    destruct (Z.eqb_spec (rd e (o_mem o0) a 8) old) as [H|H]; cbn [b2z Z.eqb].
    - sil. stp. rewrite Fd. scp_case HE.
      + assert (rd e (o_mem o5) a 8 = rd e (o_mem o0) a 8) as EQ by (apply (rd2_eq e _ _ a 4); auto; lia).
        lin_at (rd e (o_mem o5) a 8, true). { split; [reflexivity|]. cbn [fst snd]. split; [congruence|]. apply (ar_wr e _ a new New NewHi f); auto. }
        do 4 (stq; silq). done_q. apply (ar_ret_ok _ _ true). rewrite EQ. apply ar_join_rd; auto.
      + sil. do 2 (stp; sil). apply weaken. apply IH; cbnx; [lts|auto].
    - sil. commit_at (o_mem o0) (rd e (o_mem o0) a 8, false). { apply cas_fail_spec; auto. }
      do 4 (stq; silq); done_q; apply (ar_ret_ok _ _ false); apply ar_join_rd; auto. }
  start f r. apply Loop. exact Hin.
Qed.
Lemma a8_casw64_fn_atomic c a old new t : atomic_fx (a8_e c) (a8_casw64_fn c a old new t) (casw_spec (a8_e c) a 8 old new).
Proof.
  unfold a8_casw64_fn. set (e := a8_e c). unfb.
  start f r; destruct Hin as (Fd & Fo & Fv).
  do 4 (stp; sil); stp; rewrite Fd, (ar_cmp8 _ _ _ old) by auto.
  destruct (Z.eqb_spec (rd e (o_mem o) a 8) old) as [H|H]; cbn [b2z Z.eqb].
  - sil; stp; rewrite Fd; scp_case HE.
    + assert (rd e (o_mem o4) a 8 = rd e (o_mem o) a 8) as EQ by (apply (rd2_eq e _ _ a 4); auto; lia).
      lin_at (rd e (o_mem o4) a 8, true); [split; [reflexivity|]; cbn [fst snd]; split; [congruence|]; apply (ar_wr e _ a new New NewHi f); auto|].
      goq; done_q; apply (ar_ret_ok _ _ true); rewrite EQ; apply ar_join_rd; auto.
    + sil; commit_at (o_mem o) (rd e (o_mem o) a 8, false); [apply casw_fail_spec|].
      goq; done_q; apply (ar_ret_ok _ _ false); apply ar_join_rd; auto.
  - sil; commit_at (o_mem o) (rd e (o_mem o) a 8, false); [apply casw_fail_spec|].
    goq; done_q; apply (ar_ret_ok _ _ false); apply ar_join_rd; auto.
Qed.

(* ---- what the trait implementations do ---- *)
Lemma a8_dw_8 c n : a8_dw c n = true -> n = 8.
Proof. unfold a8_dw. intros H. apply andb_true_iff in H. destruct H as [H _]. now apply Z.eqb_eq. Qed.
Ltac d8 := match goal with E : a8_dw _ _ = true |- _ => apply a8_dw_8 in E; subst end.
Theorem a8_load_atomic c n o a f : a8_load c n o a = Impl f -> atomic_fx (a8_e c) f (load_spec (a8_e c) a n).
Proof. unfold a8_load. disp; [destruct (ar_sizes n E); apply a8_load_fn_atomic; auto|d8; apply a8_load64_fn_atomic]. Qed.
Theorem a8_store_atomic c n o a v f : a8_store c n o a v = Impl f -> atomic_fx (a8_e c) f (store_spec (a8_e c) a n v).
Proof. unfold a8_store. disp; [destruct (ar_sizes n E); apply a8_store_fn_atomic; auto|d8; apply a8_store64_fn_atomic]. Qed.
Theorem a8_swap_atomic c n o a v f : a8_swap c n o a v = Impl f -> atomic_fx (a8_e c) f (swap_spec (a8_e c) a n v).
Proof. unfold a8_swap. disp; [destruct (ar_sizes n E); apply a8_swap_fn_atomic; auto|d8; apply a8_swap64_fn_atomic]. Qed.
Theorem a8_cas_atomic c n os of a old new f : 0 <= old < 2 ^ (8 * n) ->
  a8_cas c n os of a old new = Impl f -> atomic_fx (a8_e c) f (cas_spec (a8_e c) a n old new).
Proof. intros Ho. unfold a8_cas. disp; [apply a8_cas_fn_atomic; auto|d8; apply a8_cas64_fn_atomic]. Qed.
Theorem a8_casw_atomic c n os of a old new f : 0 <= old < 2 ^ (8 * n) ->
  a8_casw c n os of a old new = Impl f -> atomic_fx (a8_e c) f (casw_spec (a8_e c) a n old new).
Proof. intros Ho. unfold a8_casw. disp; [apply a8_casw_fn_atomic; auto|d8; apply a8_casw64_fn_atomic]. Qed.
