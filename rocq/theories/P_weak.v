(* The 32-bit compare_exchange of riscv64/loongarch64/mips64 is still a correct compare_exchange_weak, whatever the upper
   bits of the operand register contain. *)
From Verif Require Import Sym Prog Wide Fields Sub32 UtilsProofs.
From Verif Require Import Arch_riscv Arch_loongarch Arch_mips P_riscv P_loongarch P_mips.
Lemma sx_half k w V x old : 0 < k <= w -> sext k w V = x -> low k x = old -> 0 <= V < 2 ^ k -> V = old.
Proof. intros Hk <- <- HV. rewrite sext_low by lia. symmetry. now apply low_id. Qed.
Lemma casw_fail e a n old new m : casw_spec e a n old new m m (rd e m a n, false).
Proof. split; [reflexivity|]. apply meq_refl. Qed.
Section R.
Ltac unfa := unfold sllw, srlw, seqz, rv_l, rv_s, rv_lr, rv_sc, rv_amoswap.
Lemma rv_cas_fn_weak c n a old new t : rv_wf c -> 0 < n -> 8 * n <= rv_w c ->
  atomic_fx LE (rv_cas_fn c n a old new t)
    (casw_spec LE a n old new).
Proof.
  intros Hc Hn Hw. destruct t as [acquire release]. unfold rv_cas_fn; cbnx. unfa.
  set (w := rv_w c) in *.
  match goal with |- atomic_fx ?e ?g ?sp =>
    assert (forall k f r, f_in g f -> G e g k (PL g sp []) (mkst 0 f r)) as Loop end.
  { induction k as [k IH] using lt_wf_ind. intros f r Fin. pose proof Fin as (Fd & [_ Fo] & [_ Fn]).
    go. stp. rewrite Fd.
    pose proof (rd_range LE (o_mem o0) a n Ho0 ltac:(lia)) as HR.
    br_case H.
    - sil. stp. rewrite Fd. sc_case HE.
      + lin_at (rd LE (o_mem o2) a n, true).
        { split; [reflexivity|]. cbn. split; [rewrite HE; eapply (sx_half (8 * n) w); eauto; lia|]. rewrite <- Fn. apply meq_sym, wr_low; lia. }
        stq. br_case H0; [|lia]. silq. goq. done_q. rewrite H, Z.lxor_nilpotent. cbn [b2z Z.eqb].
        unfold ret_cas. cbn [Z.eqb orb negb Pos.eqb]. do 2 f_equal. rewrite <- H. rewrite sext_low by lia. rewrite HE. apply low_id; auto.
      + sil. stp. br_case H0; [lia|]. sil. apply weaken. apply IH; auto; lia.
    - sil. apply (commit _ _ _ _ _ _ (o_mem o0) (rd LE (o_mem o0) a n, false)).
      { cbn; tauto. } { apply casw_fail. }
      goq. done_q. destruct (Z.eqb_spec (Z.lxor (sext (8*n) w (rd LE (o_mem o0) a n)) (f Old)) 0) as [X|X].
      + apply Z.lxor_eq in X. contradiction.
      + cbn [b2z]. unfold ret_cas. cbn [Z.eqb orb negb]. do 2 f_equal. rewrite sext_low by lia. apply low_id; auto. }
  start f r. apply Loop. exact Hin.
Qed.

End R.
Section L.
Ltac unfa := unfold sllw, srlw, la_ld, la_st, la_ll, la_sc, la_amswap, la_amswap0.
Lemma la_cas_fn_weak n a old new t : 0 < n -> 8 * n <= 64 ->
  atomic_fx LE (la_cas_fn n a old new t) (casw_spec LE a n old new).
Proof.
  intros Hn Hw. unfold la_cas_fn; cbnx. unfa.
  loop_inv 0%nat (fun f : regs => f Dst = a /\ opnd 64 (8 * n) old (f Old) /\ opnd 64 (8 * n) new (f New)) Loop.
  { pose proof Hi as (Fd & [_ Fo] & Fn).
    go. stp. rewrite Fd.
    pose proof (rd_range LE (o_mem o0) a n Ho0 ltac:(lia)) as HR.
    br_case H.
    - sil. go. stp. rewrite Fd. sc_case HE.
      + lin_at (rd LE (o_mem o3) a n, true).
        { split; [reflexivity|]. cbn [fst snd]. split; [rewrite HE; eapply (sx_half (8 * n) 64); eauto; lia|]. eapply wr_opnd; eauto; lia. }
        stq. br_case H0; [lia|]. silq. goq. done_q. apply (ret_cas_ok n _ _ true). rewrite HE. apply rd_sext; auto; lia.
      + sil. stp. br_case H0; [|lia]. sil. apply weaken. apply IH; auto; lts.
    - sil. commit_at (o_mem o0) (rd LE (o_mem o0) a n, false).
      { apply casw_fail. }
      goq. done_q. apply (ret_cas_ok n _ _ false). apply rd_sext; auto; lia. }
  start f r. apply Loop. exact Hin.
Qed.

End L.
Section M.
Ltac unfa := unfold sllw, srlv, mi_l, mi_s, mi_ll, mi_sc.
Lemma mi_cas_fn_weak c n a old new t : 0 < n -> 8 * n <= mi_w c ->
  atomic_fx (mi_e c) (mi_cas_fn c n a old new t) (casw_spec (mi_e c) a n old new).
Proof.
  intros Hn Hw. destruct t as [x y]. unfold mi_cas_fn; cbnx. unfa.
  loop_inv 1%nat (fun f : regs => f Dst = a /\ opnd (mi_w c) (8 * n) old (f Old) /\ opnd (mi_w c) (8 * n) new (f New)) Loop.
  { pose proof Hi as (Fd & [_ Fo] & Fn).
    go. stp. rewrite Fd.
    pose proof (rd_range (mi_e c) (o_mem o0) a n Ho0 ltac:(lia)) as HR.
    br_case H.
    - sil. go. stp. rewrite Fd. sc_case HE.
      + lin_at (rd (mi_e c) (o_mem o3) a n, true).
        { split; [reflexivity|]. cbn [fst snd]. split; [rewrite HE; eapply (sx_half (8 * n) (mi_w c)); eauto; lia|]. eapply wr_opnd; eauto; lia. }
        stq. br_case H0; [lia|]. silq. goq. done_q. apply (ret_cas_ok n _ _ true). rewrite HE. apply rd_sext; auto; lia.
      + sil. stp. br_case H0; [|lia]. sil. apply weaken. apply IH; auto; lts.
    - sil. commit_at (o_mem o0) (rd (mi_e c) (o_mem o0) a n, false).
      { apply casw_fail. }
      goq. done_q. apply (ret_cas_ok n _ _ false). apply rd_sext; auto; lia. }
  start f r. stp. sil. apply weaken. apply Loop. exact Hin.
Qed.

End M.
