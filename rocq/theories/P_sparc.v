From Verif Require Import Sym Arch_sparc Sub32.

Ltac silq ::= cbn [b2z Z.eqb Pos.eqb negb]; split; [reflexivity|].
Ltac sil ::= cbn [b2z Z.eqb Pos.eqb negb]; left; split; [reflexivity|].
Ltac unfs := unfold sp_cas_i, cmpz, bne_z, sp_sll, sp_srl.

Lemma sp_load_fn_atomic n a t : 0 < n -> atomic_fx BE (sp_load_fn n a t) (load_spec BE a n).
Proof.
  intros Hn. destruct t as [acq_ rel_]. unfold sp_load_fn. start f r.
  stp; sil. stp. rewrite Hin, Z.add_0_r. lin_at (rd BE (o_mem o0) a n); [apply load_spec_refl|].
  stq; silq. done_q. rewrite rd_low by (auto; lia). reflexivity.
Qed.
Lemma sp_store_fn_atomic c n a v t : 0 < n -> atomic_fx BE (sp_store_fn c n a v t) (store_spec BE a n v).
Proof.
  intros Hn. destruct t as [acq_ rel_]. unfold sp_store_fn. start f r. destruct Hin as [Ha Hv].
  stp; sil. stp. rewrite Ha, Z.add_0_r. lin_at tt; [eapply wr_opnd; eauto; lia|]. stq; silq. done_q. reflexivity.
Qed.
Lemma sp_swap_fn_atomic c n a v t : 0 < n -> atomic_fx BE (sp_swap_fn c n a v t) (swap_spec BE a n v).
Proof.
  intros Hn. destruct t as [acq_ rel_]. unfold sp_swap_fn. unfs.
  loop_inv 2%nat (fun f : regs => f Dst = a /\ opnd (sp_pw c) (8 * n) v (f Val)) Loop.
  { pose proof Hi as (Fd & Fv). do 3 (stp; sil). stp. rewrite Fd. br_case HE.
    - lin_at (rd BE (o_mem o2) a n). { split; [reflexivity|]. eapply wr_opnd; eauto; lia. }
      rewrite HE. stq; silq. rewrite low_low, Z.eqb_refl by lia. stq; silq. stq; silq. done_q. rewrite low_low by lia. reflexivity.
    - sil. stp; sil. rewrite rd_low by (auto; lia). destruct (Z.eqb_spec (rd BE (o_mem o2) a n) (low (8 * n) (f Out))); [congruence|].
      stp; sil. apply weaken. apply IH; cbnx; [lts|auto]. }
  start f r. do 2 (stp; sil). apply weaken. apply Loop; cbnx. exact Hin.
Qed.
Lemma sp_cas_fn_atomic c n a old new t : 0 < n -> atomic_fx BE (sp_cas_fn c n a old new t) (cas_spec BE a n old new).
Proof.
  intros Hn. destruct t as [acq_ rel_]. unfold sp_cas_fn, sp_move. destruct (sp_v9 c); cbn [app]; unfs; start f r;
  destruct Hin as (Fd & [_ Fo] & Fv); stp; sil; stp; rewrite Fd, Fo; br_case HE.
  - lin_at (rd BE (o_mem o0) a n, true). { split; [reflexivity|]. cbn [fst snd]. split; [exact HE|]. eapply wr_opnd; eauto; lia. }
    rewrite <- Fo. stq; silq. rewrite Fo, rd_low, HE, Z.eqb_refl by (auto; lia). do 3 (stq; silq). done_q. apply (ret_cas_ok n _ _ true).
    rewrite <- HE. apply rd_low; auto; lia.
  - lin_at (rd BE (o_mem o0) a n, false). { apply cas_fail_spec; auto. }
    stq; silq. rewrite Fo, rd_low by (auto; lia). destruct (Z.eqb_spec (rd BE (o_mem o0) a n) old); [congruence|].
    do 3 (stq; silq). done_q. apply (ret_cas_ok n _ _ false). apply rd_low; auto; lia.
  - lin_at (rd BE (o_mem o0) a n, true). { split; [reflexivity|]. cbn [fst snd]. split; [exact HE|]. eapply wr_opnd; eauto; lia. }
    rewrite <- Fo. stq; silq. rewrite Fo, rd_low, HE, Z.eqb_refl by (auto; lia). do 5 (stq; silq). done_q. apply (ret_cas_ok n _ _ true).
    rewrite <- HE. apply rd_low; auto; lia.
  - lin_at (rd BE (o_mem o0) a n, false). { apply cas_fail_spec; auto. }
    stq; silq. rewrite Fo, rd_low by (auto; lia). destruct (Z.eqb_spec (rd BE (o_mem o0) a n) old); [congruence|].
    do 4 (stq; silq). done_q. apply (ret_cas_ok n _ _ false). apply rd_low; auto; lia.
Qed.

(* ---- sub-word ---- *)
Lemma sp_pw_ge c : 32 <= sp_pw c. Proof. unfold sp_pw. destruct (sp_v9 c); lia. Qed.
Lemma sp_sll_low c x s : low 32 (sp_sll_val (sp_pw c) x s) = shl32 x (s mod 32).
Proof. unfold sp_sll_val, shl32. pose proof (sp_pw_ge c). now rewrite low_low by lia. Qed.
Lemma sp_sll_mask c e n a dst s x : in_word e 4 dst a n s -> x mod 32 = s -> sp_sll_val (sp_pw c) (2 ^ (8 * n) - 1) x = Z.shiftl (2 ^ (8 * n) - 1) s.
Proof.
  intros Hin E. unfold sp_sll_val. rewrite E. apply low_id. pose proof (sub_mask_range e n a dst s Hin). pose proof (sp_pw_ge c).
  split; [lia|]. eapply Z.lt_le_trans; [apply H|]. apply Z.pow_le_mono_r; lia.
Qed.
Ltac subw_s Hwf E mask n Hin_w Hs H Hm Hr :=
  apply sub_word_ok in E;
  [|destruct Hwf as [[-> _]| ->]; lia|destruct Hwf as [[-> _]| ->]; lia|assumption|assumption|assumption|unfold sp_arch; destruct (_ =? _); reflexivity];
  destruct E as (_ & _ & _ & Hin_w & Hs & _ & Hm);
  assert (mask = 2 ^ (8 * n) - 1) as H by (unfold sp_arch in Hm; destruct (_ =? _); exact Hm); clear Hm;
  pose proof (in_word_range _ _ _ _ _ _ Hin_w) as Hr.
Lemma sp_swap_sub_fn_atomic c n a v t : sp_wf c -> n = 1 \/ n = 2 -> 0 <= a < 2 ^ sp_w c -> a mod n = 0 -> 0 <= v < 2 ^ (8 * n) ->
  atomic_fx BE (sp_swap_sub_fn c n a v t) (swap_spec BE a n v).
Proof.
  intros Hwf Hn Ha Hal Hv. destruct t as [acq_ rel_]. unfold sp_swap_sub_fn.
  destruct (create_sub_word_mask_values (sp_arch c) BE (sp_w c) (sp_w c) n a) as [[dst shift] mask] eqn:E.
  subw_s Hwf E mask n Hin_w Hs H Hm Hr. unfs. set (s := field_pos BE n a) in *. set (M := Z.shiftl (2 ^ (8 * n) - 1) s).
  loop_inv_m 4%nat (fun (m : mem) (f : regs) => f Dst = dst /\ f Shift = shift /\ f Mask = M /\ (exists V, low 32 V = v /\ low 32 (f Val) = shl32 V s) /\
     f Out = rd BE m dst 4) Loop.
  { pose proof Hi as (Fd & Fs & Fm & (V & FV & Fv) & Fo). do 4 (stp; sil). stp. rewrite Fd, Fo, low32_rd by auto. br_case HE.
    - lin_at (rd BE (o_mem o3) a n). { split; [reflexivity|]. eapply wr_field; eauto. rewrite <- HE, Fm. eapply sub_merge_hi; eauto. }
      rewrite HE. stq; silq. rewrite Z.eqb_refl. do 3 (stq; silq). done_q. apply some_eq. rewrite <- HE, Fs. unfold sp_srl_val. rewrite Hs.
      apply (sub_out BE n a dst s); auto.
    - sil. stp; sil. rewrite !low32_rd by auto. destruct (Z.eqb_spec (rd BE (o_mem o3) dst 4) (rd BE m dst 4)); [congruence|].
      stp; sil. eapply weaken_in; [|apply IH; cbnx; [lts|exact Ho3|]]; [cbn; tauto|]. repeat split; eauto. }
  start f r. destruct Hin as (Fd & Fs & Fm & [_ Fv]). do 3 (stp; sil). stp; sil. eapply weaken_in; [|apply Loop; cbnx; [exact Ho2|]]; [cbn; tauto|].
  rewrite Fd, Z.add_0_r, Fm, Fs, H. repeat split; auto; [eapply sp_sll_mask; eauto|]. exists (f Val). split; [auto|]. rewrite sp_sll_low. now rewrite Hs.
Qed.
Lemma sp_cas_sub_fn_atomic c n a old new t : sp_wf c -> n = 1 \/ n = 2 -> 0 <= a < 2 ^ sp_w c -> a mod n = 0 ->
  0 <= old < 2 ^ (8 * n) -> 0 <= new < 2 ^ (8 * n) ->
  atomic_fx BE (sp_cas_sub_fn c n a old new t) (cas_spec BE a n old new).
Proof.
  intros Hwf Hn Ha Hal Hold Hnew. destruct t as [acq_ rel_]. unfold sp_cas_sub_fn.
  destruct (create_sub_word_mask_values (sp_arch c) BE (sp_w c) (sp_w c) n a) as [[dst shift] mask] eqn:E.
  subw_s Hwf E mask n Hin_w Hs H Hm Hr. unfold sp_move. destruct (sp_v9 c) eqn:V9; cbn [app]; unfs; set (s := field_pos BE n a) in *; set (M := Z.shiftl (2 ^ (8 * n) - 1) s).
  all: loop_inv_m 5%nat (fun (m : mem) (f : regs) => f Dst = dst /\ f Shift = shift /\ f Mask = M /\ (exists O, low 32 O = old /\ low 32 (f Old) = shl32 O s) /\
     (exists V, low 32 V = new /\ low 32 (f New) = shl32 V s) /\ f Out = rd BE m dst 4) Loop.
  1, 3: pose proof Hi as (Fd & Fs & Fm & (O & FO & Fold) & (V & FV & Fv) & Fo); do 2 (stp; sil); stp; rewrite Fo, Fm, Fold;
     pose proof (sub_and_range BE n a dst s Hin_w m Hm0) as SR; fold M in SR; rewrite SR;
     pose proof (sub_cmp BE n a dst s Hin_w O old m Hm0 FO Hold) as CMP; fold M in CMP;
     destruct (Z.eqb_spec (shl32 O s) (Z.land (rd BE m dst 4) M)) as [HC|HC]; cbn [b2z Z.eqb];
     [ symmetry in HC; apply CMP in HC; sil; stp; sil; do 3 (stp; sil); stp; rewrite Fd, Fo, low32_rd by auto; br_case HE;
       [ pose proof (rd_field_eq BE 4 dst a n s _ _ Hin_w Ho6 Hm0 HE) as EQ; rewrite HE;
         lin_at (rd BE (o_mem o6) a n, true); [split; [reflexivity|]; cbn [fst snd]; split; [congruence|];
            eapply wr_field; eauto; rewrite HE, Fm; eapply sub_merge_hi; eauto|];
         stq; silq; rewrite Z.eqb_refl; stq; silq; rewrite EQ
       | sil; stp; sil; rewrite !low32_rd by auto; destruct (Z.eqb_spec (rd BE (o_mem o6) dst 4) (rd BE m dst 4)); [congruence|];
         stp; sil; eapply weaken_in; [|apply IH; cbnx; [lts|exact Ho6|]]; [cbn; tauto|]; repeat split; eauto ]
     | assert (rd BE m a n <> old) as HN by (intros X; apply HC; symmetry; tauto);
       sil; stp; sil; commit_at m (rd BE m a n, false); [apply cas_fail_spec; auto|] ].
  - do 5 (stq; silq). done_q. rewrite Fs. unfold sp_srl_val. rewrite Hs. apply (ret_cas_ok n _ _ true). apply (sub_out BE n a dst s); auto.
  - do 5 (stq; silq). done_q. rewrite Fs, ?Fo. unfold sp_srl_val. rewrite Hs. apply (ret_cas_ok n _ _ false). apply (sub_out BE n a dst s); auto.
  - do 7 (stq; silq). done_q. rewrite Fs. unfold sp_srl_val. rewrite Hs. apply (ret_cas_ok n _ _ true). apply (sub_out BE n a dst s); auto.
  - do 6 (stq; silq). done_q. rewrite Fs, ?Fo. unfold sp_srl_val. rewrite Hs. apply (ret_cas_ok n _ _ false). apply (sub_out BE n a dst s); auto.
  - start f r. destruct Hin as (Fd & Fs & Fm & [_ Fold] & [_ Fv]). do 4 (stp; sil). stp; sil. eapply weaken_in; [|apply Loop; cbnx; [exact Ho3|]]; [cbn; tauto|].
    rewrite Fd, Z.add_0_r, Fm, Fs, H. repeat split; auto; [eapply sp_sll_mask; eauto| |];
      [exists (f Old)|exists (f New)]; (split; [auto|]); rewrite sp_sll_low; now rewrite Hs.
  - start f r. destruct Hin as (Fd & Fs & Fm & [_ Fold] & [_ Fv]). do 4 (stp; sil). stp; sil. eapply weaken_in; [|apply Loop; cbnx; [exact Ho3|]]; [cbn; tauto|].
    rewrite Fd, Z.add_0_r, Fm, Fs, H. repeat split; auto; [eapply sp_sll_mask; eauto| |];
      [exists (f Old)|exists (f New)]; (split; [auto|]); rewrite sp_sll_low; now rewrite Hs.
Qed.

Lemma sp_sub_n n : sp_subword n = true -> n = 1 \/ n = 2.
Proof. unfold sp_subword. intros; beqs; destruct H; beqs; lia. Qed.
Lemma sp_word_n c n : sp_word c n = true -> 0 < n.
Proof. unfold sp_word. intros; beqs. destruct H; beqs; [lia|]. destruct H; beqs; lia. Qed.
Lemma sp_any_n c n : sp_word c n || sp_subword n = true -> 0 < n.
Proof. intros H. beqs. destruct H as [H|H]; [eapply sp_word_n; eauto|apply sp_sub_n in H; lia]. Qed.
Theorem sp_load_atomic c n o a f : sp_load c n o a = Impl f -> atomic_fx BE f (load_spec BE a n).
Proof. unfold sp_load. disp. apply sp_load_fn_atomic. eapply sp_any_n; eauto. Qed.
Theorem sp_store_atomic c n o a v f : sp_store c n o a v = Impl f -> atomic_fx BE f (store_spec BE a n v).
Proof. unfold sp_store. disp. apply sp_store_fn_atomic. eapply sp_any_n; eauto. Qed.
Theorem sp_swap_atomic c n o a v f : sp_wf c -> 0 <= a < 2 ^ sp_w c -> a mod n = 0 -> 0 <= v < 2 ^ (8 * n) ->
  sp_swap c n o a v = Impl f -> atomic_fx BE f (swap_spec BE a n v).
Proof.
  intros Hwf Ha Hal Hv. unfold sp_swap. disp.
  - apply sp_swap_fn_atomic. eapply sp_word_n; eauto.
  - apply sp_swap_sub_fn_atomic; auto using sp_sub_n.
Qed.
Theorem sp_cas_atomic c n os of a old new f : sp_wf c -> 0 <= a < 2 ^ sp_w c -> a mod n = 0 -> 0 <= old < 2 ^ (8 * n) -> 0 <= new < 2 ^ (8 * n) ->
  sp_cas c n os of a old new = Impl f -> atomic_fx BE f (cas_spec BE a n old new).
Proof.
  intros Hwf Ha Hal Ho Hv. unfold sp_cas. disp.
  - apply sp_cas_fn_atomic. eapply sp_word_n; eauto.
  - apply sp_cas_sub_fn_atomic; auto using sp_sub_n.
Qed.
