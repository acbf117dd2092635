(* operand contracts and progress of the AArch64 blocks *)
From Verif Require Import Prog Arch_aarch64 Fields Wide P_aarch64.

Lemma aa_load_contract e n a t : contract e (aa_load_fn n a t).
Proof. unfold aa_load_fn. contract_tac. Qed.
Lemma aa_store_contract e n a v t : contract e (aa_store_fn n a v t).
Proof. unfold aa_store_fn. contract_tac. Qed.
Lemma aa_swap_contract e c n a v t : contract e (aa_swap_fn c n a v t).
Proof. destruct t as [[ac re] fe]. unfold aa_swap_fn. destruct (aa_lse c); unfa; contract_tac. Qed.
Lemma aa_cas_contract e c n a old new t : contract e (aa_cas_fn c n a old new t).
Proof. destruct t as [[ac re] fe]. unfold aa_cas_fn. destruct (aa_lse c); unfa; contract_tac. Qed.
Lemma aa_casw_contract e n a old new t : contract e (aa_casw_fn n a old new t).
Proof. destruct t as [[ac re] fe]. unfold aa_casw_fn. unfa; contract_tac. Qed.
Lemma aa_load128_contract e c a t : contract e (aa_load128_fn c a t).
Proof. unfold aa_load128_fn. destruct t; [| |destruct (aa_lse c)]; unfa; contract_tac. Qed.
Lemma aa_store128_contract e c a v t : contract e (aa_store128_fn c a v t).
Proof. unfold aa_store128_fn. destruct t as [o0 fa fr|[[ac re] fe]|[[ac re] fe]]; unfa; contract_tac. Qed.
Lemma aa_swap128_contract e c a v t : contract e (aa_swap128_fn c a v t).
Proof. destruct t as [[ac re] fe]. unfold aa_swap128_fn. destruct (aa_lse128 c); unfa; contract_tac. Qed.
Lemma aa_cas128_contract e c a old new t : contract e (aa_cas128_fn c a old new t).
Proof. destruct t as [[ac re] fe]. unfold aa_cas128_fn. destruct (aa_lse c); unfa; contract_tac. Qed.

Lemma aa_load_progress e n a t x y : progress e (aa_load_fn n a t) x y 1.
Proof. unfold aa_load_fn. startt f r. tline. Qed.
Lemma aa_store_progress e n a v t x y : progress e (aa_store_fn n a v t) x y 2.
Proof. unfold aa_store_fn. startt f r. tline. Qed.
Lemma aa_swap_progress e c n a v t : progress e (aa_swap_fn c n a v t) a n 5.
Proof.
  destruct t as [[ac re] fe]. unfold aa_swap_fn. destruct (aa_lse c); unfa; [startt f r; tline|].
  tinv 0%nat 5%nat (fun f : regs => f Dst = a) Loop; [tloop 0%nat IH ltac:(rewrite ?Hi) ltac:(first [assumption|lts])|].
  startt f r. apply Loop. tauto.
Qed.
Lemma aa_cas_progress e c n a old new t : progress e (aa_cas_fn c n a old new t) a n 9.
Proof.
  destruct t as [[ac re] fe]. unfold aa_cas_fn. destruct (aa_lse c); unfa; [startt f r; do 5 stt; tend|].
  tinv 0%nat 9%nat (fun f : regs => f Dst = a) Loop; [tloop 0%nat IH ltac:(rewrite ?Hi) ltac:(first [assumption|lts])|].
  startt f r. apply Loop. tauto.
Qed.
Lemma aa_casw_progress e n a old new t x y : progress e (aa_casw_fn n a old new t) x y 7.
Proof. destruct t as [[ac re] fe]. unfold aa_casw_fn. unfa. startt f r. tline. Qed.

(* a failed stxp was disturbed: lost reservation, torn ldxp or changed memory *)
Lemma scp8 e m m' a (Hm : wf_mem m) (Hm' : wf_mem m') : rd e m a 16 = rd e m' a 16 ->
  (rd e m a 8 =? rd e m' a 8) && (rd e m (a + 8) 8 =? rd e m' (a + 8) 8) = true.
Proof. intros E. destruct (rd2_inv e m m' a 8 Hm Hm' ltac:(lia) E) as [-> ->]. now rewrite !Z.eqb_refl. Qed.
Ltac stxp_fail Hd :=
  match goal with |- match (if ?b then _ else _) with _ => _ end => destruct b eqn:HB end; cbnx.
Ltac retry IH HB Hi :=
  stt; cbn [Z.eqb negb Pos.eqb]; eapply T_back; [|repeat constructor|apply IH; cbnx; [lts|exact Hi]];
  match goal with |- (1 <= ?X)%nat => destruct X eqn:Z0 end; [|lia]; exfalso; tzero;
  repeat match goal with K : o_ok _ = true |- _ => rewrite K in *; clear K end;
  rewrite scp8 in HB by (auto; congruence); discriminate.
Lemma aa_load128_progress c a t : progress (aa_e c) (aa_load128_fn c a t) a 16 4.
Proof.
  unfold aa_load128_fn. set (e := aa_e c). destruct t as [o0 fe|o0 fe|ac re]; unfa; [startt f r; tline|startt f r; tline|].
  destruct (aa_lse c); [startt f r; tline|].
  tinv 0%nat 4%nat (fun f : regs => f Src = a) Loop.
  { do 3 stt; rewrite Hi, scp_may_hit; match goal with |- match (if ?b then _ else _) with _ => _ end => destruct b eqn:HB end; cbnx.
    - tline.
    - retry IH HB Hi. }
  startt f r. apply Loop. tauto.
Qed.
Lemma aa_store128_progress c a v t : progress (aa_e c) (aa_store128_fn c a v t) a 16 5.
Proof.
  unfold aa_store128_fn. set (e := aa_e c). destruct t as [o0 fa fr|[[ac re] fe]|[[ac re] fe]]; unfa; [startt f r; tline|startt f r; tline|].
  tinv 0%nat 5%nat (fun f : regs => f Dst = a) Loop.
  { do 3 stt; rewrite Hi, scp_may_hit; match goal with |- match (if ?b then _ else _) with _ => _ end => destruct b eqn:HB end; cbnx.
    - tline.
    - retry IH HB Hi. }
  startt f r. apply Loop. tauto.
Qed.
Lemma aa_swap128_progress c a v t : progress (aa_e c) (aa_swap128_fn c a v t) a 16 5.
Proof.
  unfold aa_swap128_fn. set (e := aa_e c). destruct t as [[ac re] fe]. destruct (aa_lse128 c); unfa; [startt f r; tline|].
  tinv 0%nat 5%nat (fun f : regs => f Dst = a) Loop.
  { do 3 stt; rewrite Hi, scp_may_hit; match goal with |- match (if ?b then _ else _) with _ => _ end => destruct b eqn:HB end; cbnx.
    - tline.
    - retry IH HB Hi. }
  startt f r. apply Loop. tauto.
Qed.
Lemma aa_cas128_progress c a old new t : progress (aa_e c) (aa_cas128_fn c a old new t) a 16 13.
Proof.
  unfold aa_cas128_fn. set (e := aa_e c). destruct t as [[ac re] fe]. destruct (aa_lse c); unfa; [startt f r; do 7 stt; tend|].
  tinv 0%nat 13%nat (fun f : regs => f Dst = a) Loop.
  { do 7 stt. match goal with |- match (if ?b then _ else _) with _ => _ end => destruct b end; cbnx.
    - do 2 stt. rewrite Hi, scp_may_hit; match goal with |- match (if ?b then _ else _) with _ => _ end => destruct b eqn:HB end; cbnx.
      + tline.
      + retry IH HB Hi.
    - stt. rewrite Hi, scp_may_hit; match goal with |- match (if ?b then _ else _) with _ => _ end => destruct b eqn:HB end; cbnx.
      + tline.
      + retry IH HB Hi. }
  startt f r. apply Loop. tauto.
Qed.
