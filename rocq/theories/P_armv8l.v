From Verif Require Import P_legacy Arch_armv8l P_arm P_armv8 Wide.
Ltac unfb := unfold arl_pldp; P_armv8.unfb; unfl.

Lemma arl_pair e v rl rh (f : regs) : f rl = half1 e 32 v -> f rh = half2 e 32 v -> ar_pair e v rl rh f.
Proof. intros H1 H2. unfold ar_pair. rewrite H1, H2. destruct (lo_first A_arm e 32 v (ar_first e)) as [-> ->]. auto. Qed.
Lemma arl_out_rd e m a : wf_mem m -> halves e 32 (low (8 * 4) (rd e m a 4)) (low (8 * 4) (rd e m (a + 4) 4)) = rd e m a 8.
Proof. intros Hm. rewrite !rd_low by (auto; lia). apply (halves_rd e m a 4); auto; lia. Qed.
Lemma ar_ret_l x v b : x = v -> ar_ret x (b2z (negb b)) = Some (v, b).
Proof. apply ar_ret_ok. Qed.

Lemma a8l_load_fn_atomic e b n a t : 0 < n -> atomic_fx e (a8l_load_fn b n a t) (load_spec e a n).
Proof.
  intros Hn. unfold a8l_load_fn. unfb. start f r. destruct Hin as [Hs Fo].
  stp. rewrite Hs, Z.add_0_r. lin_at (rd e (o_mem o) a n); [apply load_spec_refl|].
  stq. priv Fo. silq. done_q. rewrite rd_low by (auto; lia). reflexivity.
Qed.
Lemma a8l_store_fn_atomic e b n a v t : 0 < n -> atomic_fx e (a8l_store_fn b n a v t) (store_spec e a n v).
Proof.
  intros Hn. unfold a8l_store_fn. unfb. start f r. destruct Hin as [Ha Hv]. stp. priv Hv. sil.
  stp. rewrite Ha, Z.add_0_r. lin_at tt; [apply meq_refl|]. done_q. reflexivity.
Qed.
Lemma a8l_swap_fn_atomic e b n a v t : 0 < n -> atomic_fx e (a8l_swap_fn b n a v t) (swap_spec e a n v).
Proof.
  intros Hn. destruct t as [fa fr]. unfold a8l_swap_fn. unfb.
  loop_inv 1%nat (fun f : regs => f Dst = a /\ f Val = v /\ f OutP = b_out b) Loop.
  { destruct Hi as (Fd & Fv & Fo). go. stp. rewrite Fd. sc_case HE.
    - lin_at (rd e (o_mem o1) a n). { split; [reflexivity|]. rewrite Fv. apply meq_refl. }
      do 2 (stq; silq). stq. priv Fo. silq. done_q. rewrite <- HE.
      now rewrite rd_low by (auto; lia).
    - sil. do 2 (stp; sil). apply weaken. apply IH; cbnx; [lts|auto]. }
  start f r. destruct Hin as (Ha & Hv & Fo). stp. priv Hv. sil. apply weaken. apply Loop. cbnx. auto.
Qed.
Lemma a8l_cas_fn_atomic e m b n a old new t : ar_word n = true -> 0 <= old < 2 ^ (8 * n) ->
  atomic_fx e (a8l_cas_fn m b n a old new t) (cas_spec e a n old new).
Proof.
  intros Wn Hold. destruct (ar_sizes n Wn) as [Hn Hw]. unfold a8l_cas_fn. unfb.
  loop_inv 2%nat (fun f : regs => f Dst = a /\ f Old = old /\ f New = new /\ f OutP = b_out b) Loop.
  { destruct Hi as (Fd & Fo & Fv & Fp). do 3 (stp; sil). stp. rewrite Fd, Fo, ar_cmp_ok by auto.
    destruct (Z.eqb_spec (rd e (o_mem o0) a n) old) as [H|H]; cbn [b2z Z.eqb].
    - sil. stp. rewrite Fd. sc_case HE.
      + lin_at (rd e (o_mem o3) a n, true). { split; [reflexivity|]. cbn [fst snd]. split; [congruence|]. rewrite Fv. apply meq_refl. }
        do 4 (stq; silq). stq. priv Fp. silq. done_q. rewrite <- HE. apply (ar_ret_ok _ _ true). apply rd_low; auto; lia.
      + sil. do 2 (stp; sil). apply weaken. apply IH; cbnx; [lts|auto].
    - sil. commit_at (o_mem o0) (rd e (o_mem o0) a n, false). { apply cas_fail_spec; auto. }
      do 4 (stq; silq). stq. priv Fp. silq. done_q; apply (ar_ret_ok _ _ false); apply rd_low; auto; lia. }
  start f r. destruct Hin as (Ha & Ho & Hv & Fp). stp. priv Ho. sil. stp. priv Hv. sil. apply weaken. apply Loop. cbnx. auto.
Qed.
Lemma a8l_casw_fn_atomic e m b n a old new t : ar_word n = true -> 0 <= old < 2 ^ (8 * n) ->
  atomic_fx e (a8l_casw_fn m b n a old new t) (casw_spec e a n old new).
Proof.
  intros Wn Hold. destruct (ar_sizes n Wn) as [Hn Hw]. unfold a8l_casw_fn. unfb.
  start f r; destruct Hin as (Fd & Fo & Fv & Fp). stp. priv Fo. sil. stp. priv Fv. sil.
  do 2 (stp; sil); stp; rewrite Fd, ar_cmp_ok by auto.
  destruct (Z.eqb_spec (rd e (o_mem o1) a n) old) as [H|H]; cbn [b2z Z.eqb].
  - sil; stp; rewrite Fd; sc_case HE.
    + lin_at (rd e (o_mem o4) a n, true); [split; [reflexivity|]; cbn [fst snd]; split; [congruence|apply meq_refl]|].
      do 2 (stq; silq); stq; priv Fp; silq; done_q; rewrite <- HE; apply (ar_ret_ok _ _ true); apply rd_low; auto; lia.
    + sil; commit_at (o_mem o1) (rd e (o_mem o1) a n, false); [apply casw_fail_spec|].
      do 2 (stq; silq); stq; priv Fp; silq; done_q; apply (ar_ret_ok _ _ false); apply rd_low; auto; lia.
  - sil; commit_at (o_mem o1) (rd e (o_mem o1) a n, false); [apply casw_fail_spec|].
    do 4 (stq; silq); stq; priv Fp; silq; done_q; apply (ar_ret_ok _ _ false); apply rd_low; auto; lia.
Qed.
Lemma a8l_load64_fn_atomic c b a t : atomic_fx (a8_e c) (a8l_load64_fn c b a t) (load_spec (a8_e c) a 8).
Proof.
  unfold a8l_load64_fn, arl_out. set (e := a8_e c). unfb. start f r. destruct Hin as [Hs Fo]. stp. rewrite Hs.
  lin_at (rd e (o_mem o) a 8); [apply load_spec_refl|].
  stq; silq. stq. priv Fo. silq. done_q; apply some_eq; apply arl_out_rd; auto.
Qed.
Lemma a8l_store64_fn_atomic c b a v t : atomic_fx (a8_e c) (a8l_store64_fn c b a v t) (store_spec (a8_e c) a 8 v).
Proof.
  unfold a8l_store64_fn. set (e := a8_e c). unfb.
  loop_inv 1%nat (fun f : regs => f Dst = a /\ ar_pair e v Val ValHi f) Loop.
  { destruct Hi as [Fd Fp]. do 2 (stp; sil). stp. rewrite Fd. scp_case HE.
    - lin_at tt. { apply (ar_wr e _ a v Val ValHi f); auto. }
      do 2 (stq; silq). done_q. reflexivity.
    - sil. do 2 (stp; sil). apply weaken. apply IH; cbnx; [lts|auto]. }
  start f r. destruct Hin as [Ha Hv]. stp. priv Hv. sil. apply weaken. apply Loop. cbnx. split; [auto|]. apply arl_pair; cbnx; auto.
Qed.
Lemma a8l_swap64_fn_atomic c b a v t : atomic_fx (a8_e c) (a8l_swap64_fn c b a v t) (swap_spec (a8_e c) a 8 v).
Proof.
  unfold a8l_swap64_fn, arl_out. set (e := a8_e c). unfb.
  loop_inv 1%nat (fun f : regs => f Dst = a /\ ar_pair e v Val ValHi f /\ f OutP = b_out b) Loop.
  { destruct Hi as (Fd & Fp & Fo). do 2 (stp; sil). stp. rewrite Fd. scp_case HE.
    - lin_at (rd e (o_mem o1) a 8). { split; [reflexivity|]. apply (ar_wr e _ a v Val ValHi f); auto. }
      do 2 (stq; silq). stq. priv Fo. silq. done_q. apply some_eq. rewrite <- HE1, <- HE2. apply arl_out_rd; auto.
    - sil. do 2 (stp; sil). apply weaken. apply IH; cbnx; [lts|auto]. }
  start f r. destruct Hin as (Ha & Hv & Fo). stp. priv Hv. sil. apply weaken. apply Loop. cbnx. split; [auto|]. split; [apply arl_pair; cbnx|]; auto.
Qed.
Lemma a8l_cas64_fn_atomic c b a old new t : atomic_fx (a8_e c) (a8l_cas64_fn c b a old new t) (cas_spec (a8_e c) a 8 old new).
Proof.
  unfold a8l_cas64_fn, arl_out. set (e := a8_e c). unfb.
  loop_inv 2%nat (fun f : regs => f Dst = a /\ ar_pair e old Old OldHi f /\ ar_pair e new New NewHi f /\ f OutP = b_out b) Loop.
  { destruct Hi as (Fd & Fo & Fv & Fp). do 5 (stp; sil). stp. rewrite Fd, (ar_cmp8 _ _ _ old) by auto.
    destruct (Z.eqb_spec (rd e (o_mem o0) a 8) old) as [H|H]; cbn [b2z Z.eqb].
    - sil. stp. rewrite Fd. scp_case HE.
      + assert (rd e (o_mem o5) a 8 = rd e (o_mem o0) a 8) as EQ by (apply (rd2_eq e _ _ a 4); auto; lia).
        lin_at (rd e (o_mem o5) a 8, true). { split; [reflexivity|]. cbn [fst snd]. split; [congruence|]. apply (ar_wr e _ a new New NewHi f); auto. }
        do 4 (stq; silq). stq. priv Fp. silq. done_q. apply (ar_ret_ok _ _ true). rewrite EQ. apply arl_out_rd; auto.
      + sil. do 2 (stp; sil). apply weaken. apply IH; cbnx; [lts|auto].
    - sil. commit_at (o_mem o0) (rd e (o_mem o0) a 8, false). { apply cas_fail_spec; auto. }
      do 4 (stq; silq). stq. priv Fp. silq. done_q; apply (ar_ret_ok _ _ false); apply arl_out_rd; auto. }
  start f r. destruct Hin as (Ha & Ho & Hv & Fp). stp. priv Ho. sil. stp. priv Hv. sil. apply weaken. apply Loop. cbnx.
  split; [auto|]. split; [apply arl_pair; cbnx; auto|]. split; [apply arl_pair; cbnx|]; auto.
Qed.
Lemma a8l_casw64_fn_atomic c b a old new t : atomic_fx (a8_e c) (a8l_casw64_fn c b a old new t) (casw_spec (a8_e c) a 8 old new).
Proof.
  unfold a8l_casw64_fn, arl_out. set (e := a8_e c). unfb.
  start f r; destruct Hin as (Fd & Fo & Fv & Fp). stp. priv Fo. sil. stp. priv Fv. sil.
  match goal with |- context[mkst _ ?g _] => set (f1 := g) end.
  assert (ar_pair e old Old OldHi f1) as Po by (apply arl_pair; reflexivity).
  assert (ar_pair e new New NewHi f1) as Pv by (apply arl_pair; reflexivity).
  assert (f1 Dst = a) as Gd by exact Fd. assert (f1 OutP = b_out b) as Gp by exact Fp. clearbody f1.
  do 4 (stp; sil); stp; rewrite Gd, (ar_cmp8 _ _ _ old) by auto.
  destruct (Z.eqb_spec (rd e (o_mem o1) a 8) old) as [H|H]; cbn [b2z Z.eqb].
  - sil; stp; rewrite Gd; scp_case HE.
    + assert (rd e (o_mem o6) a 8 = rd e (o_mem o1) a 8) as EQ by (apply (rd2_eq e _ _ a 4); auto; lia).
      lin_at (rd e (o_mem o6) a 8, true); [split; [reflexivity|]; cbn [fst snd]; split; [congruence|]; apply (ar_wr e _ a new New NewHi f1); auto|].
      do 2 (stq; silq); stq; priv Gp; silq; done_q; apply (ar_ret_ok _ _ true); rewrite EQ; apply arl_out_rd; auto.
    + sil; commit_at (o_mem o1) (rd e (o_mem o1) a 8, false); [apply casw_fail_spec|].
      do 2 (stq; silq); stq; priv Gp; silq; done_q; apply (ar_ret_ok _ _ false); apply arl_out_rd; auto.
  - sil; commit_at (o_mem o1) (rd e (o_mem o1) a 8, false); [apply casw_fail_spec|].
    do 4 (stq; silq); stq; priv Gp; silq; done_q; apply (ar_ret_ok _ _ false); apply arl_out_rd; auto.
Qed.

(* ---- what the trait implementations do ---- *)
Theorem a8l_load_atomic c b n o a f : a8l_load c b n o a = Impl f -> atomic_fx (a8_e c) f (load_spec (a8_e c) a n).
Proof. unfold a8l_load. disp; [destruct (ar_sizes n E); apply a8l_load_fn_atomic; auto|d8; apply a8l_load64_fn_atomic]. Qed.
Theorem a8l_store_atomic c b n o a v f : a8l_store c b n o a v = Impl f -> atomic_fx (a8_e c) f (store_spec (a8_e c) a n v).
Proof. unfold a8l_store. disp; [destruct (ar_sizes n E); apply a8l_store_fn_atomic; auto|d8; apply a8l_store64_fn_atomic]. Qed.
Theorem a8l_swap_atomic c b n o a v f : a8l_swap c b n o a v = Impl f -> atomic_fx (a8_e c) f (swap_spec (a8_e c) a n v).
Proof. unfold a8l_swap. disp; [destruct (ar_sizes n E); apply a8l_swap_fn_atomic; auto|d8; apply a8l_swap64_fn_atomic]. Qed.
Theorem a8l_cas_atomic c b n os of a old new f : 0 <= old < 2 ^ (8 * n) ->
  a8l_cas c b n os of a old new = Impl f -> atomic_fx (a8_e c) f (cas_spec (a8_e c) a n old new).
Proof. intros Ho. unfold a8l_cas. disp; [apply a8l_cas_fn_atomic; auto|d8; apply a8l_cas64_fn_atomic]. Qed.
Theorem a8l_casw_atomic c b n os of a old new f : 0 <= old < 2 ^ (8 * n) ->
  a8l_casw c b n os of a old new = Impl f -> atomic_fx (a8_e c) f (casw_spec (a8_e c) a n old new).
Proof. intros Ho. unfold a8l_casw. disp; [apply a8l_casw_fn_atomic; auto|d8; apply a8l_casw64_fn_atomic]. Qed.
