From Verif Require Import P_legacy Arch_arml P_arm P_armv8 P_armv8l Wide.
Ltac unfa := unfold arl_pldp; P_arm.unfa; unfl.
Ltac gop H := repeat (stq; priv H; silq).

Lemma arl_load_fn_atomic e b n a t : 0 < n -> atomic_fx e (arl_load_fn b n a t) (load_spec e a n).
Proof.
  intros Hn. unfold arl_load_fn. unfa. start f r. destruct Hin as [Hs Fo].
  stp. rewrite Hs, Z.add_0_r. lin_at (rd e (o_mem o) a n); [apply load_spec_refl|].
  stq; silq. stq. priv Fo. silq. done_q. rewrite rd_low by (auto; lia). reflexivity.
Qed.
Lemma arl_store_fn_atomic e b n a v t : 0 < n -> atomic_fx e (arl_store_fn b n a v t) (store_spec e a n v).
Proof.
  intros Hn. unfold arl_store_fn. destruct t as [re fe]. unfa. start f r. destruct Hin as [Ha Hv]. stp. priv Hv. sil.
  stp; sil. stp. rewrite Ha, Z.add_0_r. lin_at tt; [apply meq_refl|]. stq. silq. done_q. reflexivity.
Qed.
Lemma arl_swap_fn_atomic e b n a v t : 0 < n -> atomic_fx e (arl_swap_fn b n a v t) (swap_spec e a n v).
Proof.
  intros Hn. destruct t as [fa fr]. unfold arl_swap_fn. unfa.
  loop_inv 2%nat (fun f : regs => f Dst = a /\ f Val = v /\ f OutP = b_out b) Loop.
  { destruct Hi as (Fd & Fv & Fo). go. stp. rewrite Fd. sc_case HE.
    - lin_at (rd e (o_mem o1) a n). { split; [reflexivity|]. rewrite Fv. apply meq_refl. }
      do 3 (stq; silq). stq. priv Fo. silq. done_q. rewrite <- HE. now rewrite rd_low by (auto; lia).
    - sil. do 2 (stp; sil). apply weaken. apply IH; cbnx; [lts|auto]. }
  start f r. destruct Hin as (Ha & Hv & Fo). stp. priv Hv. sil. stp; sil. apply weaken. apply Loop. cbnx. auto.
Qed.
Lemma arl_cas_fn_atomic e c b n a old new t : ar_word n = true -> 0 <= old < 2 ^ (8 * n) ->
  atomic_fx e (arl_cas_fn c b n a old new t) (cas_spec e a n old new).
Proof.
  intros Wn Hold. destruct (ar_sizes n Wn) as [Hn Hw]. unfold arl_cas_fn . unfa. destruct t as [fs ff|ff|ff].
  - loop_inv 2%nat (fun f : regs => f Dst = a /\ f Old = old /\ f New = new /\ f OutP = b_out b) Loop.
    { destruct Hi as (Fd & Fo & Fv & Fp). do 3 (stp; sil). stp. rewrite Fd, Fo, ar_cmp_ok by auto.
      destruct (Z.eqb_spec (rd e (o_mem o0) a n) old) as [H|H]; cbn [b2z Z.eqb].
      - sil. stp. rewrite Fd. sc_case HE.
        + lin_at (rd e (o_mem o3) a n, true). { split; [reflexivity|]. cbn [fst snd]. split; [congruence|]. rewrite ?Fv; apply meq_refl. }
          gop Fp; done_q. rewrite <- HE. apply (ar_ret_ok _ _ true). apply rd_low; auto; lia.
        + sil. do 2 (stp; sil). apply weaken. apply IH; cbnx; [lts|auto].
      - sil. commit_at (o_mem o0) (rd e (o_mem o0) a n, false). { apply cas_fail_spec; auto. }
        gop Fp; done_q; apply (ar_ret_ok _ _ false); apply rd_low; auto; lia. }
    start f r. destruct Hin as (Fd & Fo & Fv & Fp). stp. priv Fo. sil. stp. priv Fv. sil. apply weaken. apply Loop. cbnx. auto.
  - loop_inv_r 6%nat (Some [(a, n, old)]) (fun f : regs => f Dst = a /\ f Old = old /\ f New = new /\ f OutP = b_out b /\ f Out = old) Loop.
    { destruct Hi as (Fd & Fo & Fv & Fp & Fu). stp; sil. stp. rewrite Fd. sc_case HE.
      - lin_at (rd e (o_mem o0) a n, true). { split; [reflexivity|]. cbn [fst snd]. split; [congruence|]. rewrite ?Fv; apply meq_refl. }
        gop Fp; done_q. rewrite HE. apply (ar_ret_ok _ _ true). rewrite Fu. apply low_id; auto.
      - sil. do 4 (stp; sil). stp. rewrite Fd, Fo, ar_cmp_ok by auto.
        destruct (Z.eqb_spec (rd e (o_mem o3) a n) old) as [H|H]; cbn [b2z Z.eqb negb].
        + sil. apply weaken. rewrite H. apply IH; cbnx; [lts|auto].
        + sil. commit_at (o_mem o3) (rd e (o_mem o3) a n, false). { apply cas_fail_spec; auto. }
          gop Fp; done_q; apply (ar_ret_ok _ _ false); apply rd_low; auto; lia. }
    start f r. destruct Hin as (Fd & Fo & Fv & Fp). stp. priv Fo. sil. stp. priv Fv. sil. do 2 (stp; sil). stp. rewrite Fd, ar_cmp_ok by auto.
    destruct (Z.eqb_spec (rd e (o_mem o1) a n) old) as [H|H]; cbn [b2z Z.eqb].
    + sil. stp; sil. apply weaken. rewrite H. apply Loop; cbnx; auto.
    + sil. commit_at (o_mem o1) (rd e (o_mem o1) a n, false). { apply cas_fail_spec; auto. }
      gop Fp; done_q; apply (ar_ret_ok _ _ false); apply rd_low; auto; lia.
  - loop_inv_r 6%nat (Some [(a, n, old)]) (fun f : regs => f Dst = a /\ f Old = old /\ f New = new /\ f OutP = b_out b /\ f Out = old) Loop.
    { destruct Hi as (Fd & Fo & Fv & Fp & Fu). stp; sil. stp. rewrite Fd. sc_case HE.
      - lin_at (rd e (o_mem o0) a n, true). { split; [reflexivity|]. cbn [fst snd]. split; [congruence|]. rewrite ?Fv; apply meq_refl. }
        gop Fp; done_q. rewrite HE. apply (ar_ret_ok _ _ true). rewrite Fu. apply low_id; auto.
      - sil. do 4 (stp; sil). stp. rewrite Fd, Fo, ar_cmp_ok by auto.
        destruct (Z.eqb_spec (rd e (o_mem o3) a n) old) as [H|H]; cbn [b2z Z.eqb negb].
        + sil. apply weaken. rewrite H. apply IH; cbnx; [lts|auto].
        + sil. commit_at (o_mem o3) (rd e (o_mem o3) a n, false). { apply cas_fail_spec; auto. }
          gop Fp; done_q; apply (ar_ret_ok _ _ false); apply rd_low; auto; lia. }
    start f r. destruct Hin as (Fd & Fo & Fv & Fp). stp. priv Fo. sil. stp. priv Fv. sil. do 2 (stp; sil). stp. rewrite Fd, ar_cmp_ok by auto.
    destruct (Z.eqb_spec (rd e (o_mem o1) a n) old) as [H|H]; cbn [b2z Z.eqb].
    + sil. stp; sil. apply weaken. rewrite H. apply Loop; cbnx; auto.
    + sil. commit_at (o_mem o1) (rd e (o_mem o1) a n, false). { apply cas_fail_spec; auto. }
      gop Fp; done_q; apply (ar_ret_ok _ _ false); apply rd_low; auto; lia.
Qed.
Lemma arl_casw_fn_atomic e c b n a old new t : ar_word n = true -> 0 <= old < 2 ^ (8 * n) ->
  atomic_fx e (arl_casw_fn c b n a old new t) (casw_spec e a n old new).
Proof.
  intros Wn Hold. destruct (ar_sizes n Wn) as [Hn Hw]. unfold arl_casw_fn . unfa.
  destruct t as [fa fr|fr|fr]; start f r; destruct Hin as (Fd & Fo & Fv & Fp); stp; priv Fo; sil; stp; priv Fv; sil;
  do 2 (stp; sil); stp; rewrite Fd, ar_cmp_ok by auto;
  (destruct (Z.eqb_spec (rd e (o_mem o1) a n) old) as [H|H]; cbn [b2z Z.eqb];
  [ sil; stp; sil; stp; rewrite Fd; sc_case HE;
    [ lin_at (rd e (o_mem o5) a n, true); [split; [reflexivity|]; cbn [fst snd]; split; [congruence|]; rewrite ?Fv; apply meq_refl|];
      gop Fp; done_q; rewrite <- HE; apply (ar_ret_ok _ _ true); apply rd_low; auto; lia
    | sil; commit_at (o_mem o1) (rd e (o_mem o1) a n, false); [apply casw_fail_spec|];
      gop Fp; done_q; apply (ar_ret_ok _ _ false); apply rd_low; auto; lia]
  | sil; commit_at (o_mem o1) (rd e (o_mem o1) a n, false); [apply casw_fail_spec|];
    gop Fp; done_q; apply (ar_ret_ok _ _ false); apply rd_low; auto; lia ]).
Qed.

(* ---- 64-bit ---- *)
Lemma arl_load64_fn_atomic c b a t : atomic_fx (ar_e c) (arl_load64_fn c b a t) (load_spec (ar_e c) a 8).
Proof.
  unfold arl_load64_fn, arl_out. set (e := ar_e c). unfa. start f r. destruct Hin as [Hs Fo]. stp. rewrite Hs.
  lin_at (rd e (o_mem o) a 8); [apply load_spec_refl|].
  gop Fo; done_q; apply some_eq; apply arl_out_rd; auto.
Qed.
Lemma arl_store64_fn_atomic c b a v t : atomic_fx (ar_e c) (arl_store64_fn c b a v t) (store_spec (ar_e c) a 8 v).
Proof.
  unfold arl_store64_fn. set (e := ar_e c). unfa.
  loop_inv 2%nat (fun f : regs => f Dst = a /\ ar_pair e v Val ValHi f) Loop.
  { destruct Hi as [Fd Fp]. do 2 (stp; sil). stp. rewrite Fd. scp_case HE.
    - lin_at tt. { apply (ar_wr e _ a v Val ValHi f); auto. }
      do 3 (stq; silq). done_q. reflexivity.
    - sil. do 2 (stp; sil). apply weaken. apply IH; cbnx; [lts|auto]. }
  start f r. destruct Hin as [Ha Hv]. stp. priv Hv. sil. stp; sil. apply weaken. apply Loop. cbnx. split; [auto|]. apply arl_pair; cbnx; auto.
Qed.
Lemma arl_swap64_fn_atomic c b a v t : atomic_fx (ar_e c) (arl_swap64_fn c b a v t) (swap_spec (ar_e c) a 8 v).
Proof.
  unfold arl_swap64_fn, arl_out. set (e := ar_e c). unfa.
  loop_inv 2%nat (fun f : regs => f Dst = a /\ ar_pair e v Val ValHi f /\ f OutP = b_out b) Loop.
  { destruct Hi as (Fd & Fp & Fo). do 2 (stp; sil). stp. rewrite Fd. scp_case HE.
    - lin_at (rd e (o_mem o1) a 8). { split; [reflexivity|]. apply (ar_wr e _ a v Val ValHi f); auto. }
      gop Fo. done_q. apply some_eq. rewrite <- HE1, <- HE2. apply arl_out_rd; auto.
    - sil. do 2 (stp; sil). apply weaken. apply IH; cbnx; [lts|auto]. }
  start f r. destruct Hin as (Ha & Hv & Fo). stp. priv Hv. sil. stp; sil. apply weaken. apply Loop. cbnx. split; [auto|]. split; [apply arl_pair; cbnx|]; auto.
Qed.
Lemma arl_cas64_fn_atomic c b a old new t : atomic_fx (ar_e c) (arl_cas64_fn c b a old new t) (cas_spec (ar_e c) a 8 old new).
Proof.
  unfold arl_cas64_fn, arl_out. set (e := ar_e c). unfa. destruct t as [fs ff|ff|ff].
  - loop_inv 2%nat (fun f : regs => f Dst = a /\ ar_pair e old Old OldHi f /\ ar_pair e new New NewHi f /\ f OutP = b_out b) Loop.
    { destruct Hi as (Fd & Fo & Fv & Fp). do 5 (stp; sil). stp. rewrite Fd, (ar_cmp8 _ _ _ old) by auto.
      destruct (Z.eqb_spec (rd e (o_mem o0) a 8) old) as [H|H]; cbn [b2z Z.eqb].
      - sil. stp. rewrite Fd. scp_case HE.
        + assert (rd e (o_mem o5) a 8 = rd e (o_mem o0) a 8) as EQ by (apply (rd2_eq e _ _ a 4); auto; lia).
          lin_at (rd e (o_mem o5) a 8, true). { split; [reflexivity|]. cbn [fst snd]. split; [congruence|]. apply (ar_wr e _ a new New NewHi f); auto. }
          gop Fp; done_q. apply (ar_ret_ok _ _ true). rewrite EQ. apply arl_out_rd; auto.
        + sil. do 2 (stp; sil). apply weaken. apply IH; cbnx; [lts|auto].
      - sil. commit_at (o_mem o0) (rd e (o_mem o0) a 8, false). { apply cas_fail_spec; auto. }
        gop Fp; done_q; apply (ar_ret_ok _ _ false); apply arl_out_rd; auto. }
    start f r. destruct Hin as (Fd & Fo & Fv & Fp). stp. priv Fo. sil. stp. priv Fv. sil. apply weaken. apply Loop. cbnx.
    split; [auto|]. split; [apply arl_pair; cbnx; auto|]. split; [apply arl_pair; cbnx; auto|auto].
  - loop_inv_rm 8%nat (fun m => Some [(a, 4, rd e m a 4); (a + 4, 4, rd e m (a + 4) 4)])
      (fun m (f : regs) => rd e m a 8 = old /\ f Dst = a /\ ar_pair e old Old OldHi f /\ ar_pair e new New NewHi f /\ f OutP = b_out b /\ f Out = rd e m a 4 /\ f OutHi = rd e m (a + 4) 4) Loop.
    { destruct Hi as (Em & Fd & Fo & Fv & Fp & Fu & Fu').
      stp; sil. stp. rewrite Fd. scp_case HE.
      - assert (rd e (o_mem o0) a 8 = rd e m a 8) as EQ by (apply (rd2_eq e _ _ a 4); auto; lia).
        lin_at (rd e (o_mem o0) a 8, true). { split; [reflexivity|]. cbn [fst snd]. split; [congruence|]. apply (ar_wr e _ a new New NewHi f); auto. }
        gop Fp; done_q. apply (ar_ret_ok _ _ true). rewrite EQ, Fu, Fu'. apply arl_out_rd; auto.
      - sil. do 6 (stp; sil). stp. rewrite Fd, (ar_cmp8 _ _ _ old) by auto.
        destruct (Z.eqb_spec (rd e (o_mem o3) a 8) old) as [H|H]; cbn [b2z Z.eqb negb].
        + sil. apply weaken. apply IH; cbnx; [lts|auto|repeat split; auto; apply Fo || apply Fv].
        + sil. commit_at (o_mem o3) (rd e (o_mem o3) a 8, false). { apply cas_fail_spec; auto. }
          gop Fp; done_q; apply (ar_ret_ok _ _ false); apply arl_out_rd; auto. }
    start f r. destruct Hin as (Fd & Fo & Fv & Fp). stp. priv Fo. sil. stp. priv Fv. sil. match goal with |- context[mkst _ ?g _] => set (f1 := g) end.
    assert (ar_pair e old Old OldHi f1) as Po by (apply arl_pair; reflexivity). assert (ar_pair e new New NewHi f1) as Pv by (apply arl_pair; reflexivity).
    assert (f1 Dst = a) as Gd by exact Fd. assert (f1 OutP = b_out b) as Gp by exact Fp. clearbody f1. clear f Fd Fo Fv Fp. rename f1 into f, Gd into Fd, Po into Fo, Pv into Fv, Gp into Fp.
    do 4 (stp; sil). stp. rewrite Fd, (ar_cmp8 _ _ _ old) by auto.
    destruct (Z.eqb_spec (rd e (o_mem o1) a 8) old) as [H|H]; cbn [b2z Z.eqb].
    + sil. stp; sil. apply weaken. apply (Loop _ _ (o_mem o1)); cbnx; [auto|repeat split; auto; apply Fo || apply Fv].
    + sil. commit_at (o_mem o1) (rd e (o_mem o1) a 8, false). { apply cas_fail_spec; auto. }
      gop Fp; done_q; apply (ar_ret_ok _ _ false); apply arl_out_rd; auto.
  - loop_inv_rm 8%nat (fun m => Some [(a, 4, rd e m a 4); (a + 4, 4, rd e m (a + 4) 4)])
      (fun m (f : regs) => rd e m a 8 = old /\ f Dst = a /\ ar_pair e old Old OldHi f /\ ar_pair e new New NewHi f /\ f OutP = b_out b /\ f Out = rd e m a 4 /\ f OutHi = rd e m (a + 4) 4) Loop.
    { destruct Hi as (Em & Fd & Fo & Fv & Fp & Fu & Fu').
      stp; sil. stp. rewrite Fd. scp_case HE.
      - assert (rd e (o_mem o0) a 8 = rd e m a 8) as EQ by (apply (rd2_eq e _ _ a 4); auto; lia).
        lin_at (rd e (o_mem o0) a 8, true). { split; [reflexivity|]. cbn [fst snd]. split; [congruence|]. apply (ar_wr e _ a new New NewHi f); auto. }
        gop Fp; done_q. apply (ar_ret_ok _ _ true). rewrite EQ, Fu, Fu'. apply arl_out_rd; auto.
      - sil. do 6 (stp; sil). stp. rewrite Fd, (ar_cmp8 _ _ _ old) by auto.
        destruct (Z.eqb_spec (rd e (o_mem o3) a 8) old) as [H|H]; cbn [b2z Z.eqb negb].
        + sil. apply weaken. apply IH; cbnx; [lts|auto|repeat split; auto; apply Fo || apply Fv].
        + sil. commit_at (o_mem o3) (rd e (o_mem o3) a 8, false). { apply cas_fail_spec; auto. }
          gop Fp; done_q; apply (ar_ret_ok _ _ false); apply arl_out_rd; auto. }
    start f r. destruct Hin as (Fd & Fo & Fv & Fp). stp. priv Fo. sil. stp. priv Fv. sil. match goal with |- context[mkst _ ?g _] => set (f1 := g) end.
    assert (ar_pair e old Old OldHi f1) as Po by (apply arl_pair; reflexivity). assert (ar_pair e new New NewHi f1) as Pv by (apply arl_pair; reflexivity).
    assert (f1 Dst = a) as Gd by exact Fd. assert (f1 OutP = b_out b) as Gp by exact Fp. clearbody f1. clear f Fd Fo Fv Fp. rename f1 into f, Gd into Fd, Po into Fo, Pv into Fv, Gp into Fp.
    do 4 (stp; sil). stp. rewrite Fd, (ar_cmp8 _ _ _ old) by auto.
    destruct (Z.eqb_spec (rd e (o_mem o1) a 8) old) as [H|H]; cbn [b2z Z.eqb].
    + sil. stp; sil. apply weaken. apply (Loop _ _ (o_mem o1)); cbnx; [auto|repeat split; auto; apply Fo || apply Fv].
    + sil. commit_at (o_mem o1) (rd e (o_mem o1) a 8, false). { apply cas_fail_spec; auto. }
      gop Fp; done_q; apply (ar_ret_ok _ _ false); apply arl_out_rd; auto.
Qed.
Lemma arl_casw64_fn_atomic c b a old new t : atomic_fx (ar_e c) (arl_casw64_fn c b a old new t) (casw_spec (ar_e c) a 8 old new).
Proof.
  unfold arl_casw64_fn, arl_out. set (e := ar_e c). unfa.
  destruct t as [fa fr|fr|fr]; start f r; destruct Hin as (Fd & Fo & Fv & Fp); stp; priv Fo; sil; stp; priv Fv; sil; match goal with |- context[mkst _ ?g _] => set (f1 := g) end;
    assert (ar_pair e old Old OldHi f1) as Po by (apply arl_pair; reflexivity); assert (ar_pair e new New NewHi f1) as Pv by (apply arl_pair; reflexivity);
    assert (f1 Dst = a) as Gd by exact Fd; assert (f1 OutP = b_out b) as Gp by exact Fp; clearbody f1; clear f Fd Fo Fv Fp; rename f1 into f, Gd into Fd, Po into Fo, Pv into Fv, Gp into Fp;
  do 4 (stp; sil); stp; rewrite Fd, (ar_cmp8 _ _ _ old) by auto;
  (destruct (Z.eqb_spec (rd e (o_mem o1) a 8) old) as [H|H]; cbn [b2z Z.eqb];
  [ sil; stp; sil; stp; rewrite Fd; scp_case HE;
    [ assert (rd e (o_mem o7) a 8 = rd e (o_mem o1) a 8) as EQ by (apply (rd2_eq e _ _ a 4); auto; lia);
      lin_at (rd e (o_mem o7) a 8, true); [split; [reflexivity|]; cbn [fst snd]; split; [congruence|]; apply (ar_wr e _ a new New NewHi f); auto|];
      gop Fp; done_q; apply (ar_ret_ok _ _ true); rewrite EQ; apply arl_out_rd; auto
    | sil; commit_at (o_mem o1) (rd e (o_mem o1) a 8, false); [apply casw_fail_spec|];
      gop Fp; done_q; apply (ar_ret_ok _ _ false); apply arl_out_rd; auto]
  | sil; commit_at (o_mem o1) (rd e (o_mem o1) a 8, false); [apply casw_fail_spec|];
    gop Fp; done_q; apply (ar_ret_ok _ _ false); apply arl_out_rd; auto ]).
Qed.

(* ---- what the trait implementations do ---- *)
Theorem arl_load_atomic c b n o a f : arl_load c b n o a = Impl f -> atomic_fx (ar_e c) f (load_spec (ar_e c) a n).
Proof.
  unfold arl_load. disp.
  - destruct (ar_sizes n E). apply arl_load_fn_atomic; auto.
  - beqs. destruct E0 as [E0 _]. beqs. subst n. apply arl_load64_fn_atomic.
Qed.
Theorem arl_store_atomic c b n o a v f : arl_store c b n o a v = Impl f -> atomic_fx (ar_e c) f (store_spec (ar_e c) a n v).
Proof.
  unfold arl_store. disp.
  - destruct (ar_sizes n E). apply arl_store_fn_atomic; auto.
  - beqs. destruct E0 as [E0 _]. beqs. subst n. apply arl_store64_fn_atomic.
Qed.
Theorem arl_swap_atomic c b n o a v f : arl_swap c b n o a v = Impl f -> atomic_fx (ar_e c) f (swap_spec (ar_e c) a n v).
Proof.
  unfold arl_swap. disp.
  - destruct (ar_sizes n E). apply arl_swap_fn_atomic; auto.
  - beqs. destruct E0 as [E0 _]. beqs. subst n. apply arl_swap64_fn_atomic.
Qed.
Theorem arl_cas_atomic c b n os of a old new f : 0 <= old < 2 ^ (8 * n) ->
  arl_cas c b n os of a old new = Impl f -> atomic_fx (ar_e c) f (cas_spec (ar_e c) a n old new).
Proof.
  intros Ho. unfold arl_cas. disp.
  - apply arl_cas_fn_atomic; auto.
  - beqs. destruct E0 as [E0 _]. beqs. subst n. apply arl_cas64_fn_atomic.
Qed.
Theorem arl_casw_atomic c b n os of a old new f : 0 <= old < 2 ^ (8 * n) ->
  arl_casw c b n os of a old new = Impl f -> atomic_fx (ar_e c) f (casw_spec (ar_e c) a n old new).
Proof.
  intros Ho. unfold arl_casw. disp.
  - apply arl_casw_fn_atomic; auto.
  - beqs. destruct E0 as [E0 _]. beqs. subst n. apply arl_casw64_fn_atomic.
Qed.
