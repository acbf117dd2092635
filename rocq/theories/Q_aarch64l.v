(* operand contracts and progress of the src/arch_legacy AArch64 blocks *)
From Verif Require Import Prog Arch_aarch64l Fields Wide P_legacy P_aarch64l Q_aarch64.

Lemma aal_load_contract e b n a t : contract e (aal_load_fn b n a t).
Proof. unfold aal_load_fn. unfa. contract_tac. Qed.
Lemma aal_store_contract e b n a v t : contract e (aal_store_fn b n a v t).
Proof. unfold aal_store_fn. unfa. contract_tac. Qed.
Lemma aal_swap_contract e c b n a v t : contract e (aal_swap_fn c b n a v t).
Proof. destruct t as [[ac re] fe]. unfold aal_swap_fn. destruct (aa_lse c); unfa; contract_tac. Qed.
Lemma aal_cas_contract e c b n a old new t : contract e (aal_cas_fn c b n a old new t).
Proof. destruct t as [[ac re] fe]. unfold aal_cas_fn. destruct (aa_lse c); unfa; contract_tac. Qed.
Lemma aal_casw_contract e b n a old new t : contract e (aal_casw_fn b n a old new t).
Proof. destruct t as [[ac re] fe]. unfold aal_casw_fn. unfa; contract_tac. Qed.
Lemma aal_load128_contract e c b a t : contract e (aal_load128_fn c b a t).
Proof. unfold aal_load128_fn. destruct t; [| |destruct (aa_lse c)]; unfa; contract_tac. Qed.
Lemma aal_store128_contract e c b a v t : contract e (aal_store128_fn c b a v t).
Proof. unfold aal_store128_fn. destruct t as [o0 fa fr|[[ac re] fe]|[[ac re] fe]]; unfa; contract_tac. Qed.
Lemma aal_swap128_contract e c b a v t : contract e (aal_swap128_fn c b a v t).
Proof. destruct t as [[ac re] fe]. unfold aal_swap128_fn. destruct (aa_lse128 c); unfa; contract_tac. Qed.
Lemma aal_cas128_contract e c b a old new t : contract e (aal_cas128_fn c b a old new t).
Proof. destruct t as [[ac re] fe]. unfold aal_cas128_fn. destruct (aa_lse c); unfa; contract_tac. Qed.

Lemma aal_load_progress e b n a t x y : progress e (aal_load_fn b n a t) x y 2.
Proof. unfold aal_load_fn. unfa. startt f r. tline. Qed.
Lemma aal_store_progress e b n a v t x y : progress e (aal_store_fn b n a v t) x y 3.
Proof. unfold aal_store_fn. unfa. startt f r. tline. Qed.
Lemma aal_swap_progress e c b n a v t : progress e (aal_swap_fn c b n a v t) a n 7.
Proof.
  destruct t as [[ac re] fe]. unfold aal_swap_fn. destruct (aa_lse c); unfa; [startt f r; tline|].
  tinv 1%nat 6%nat (fun f : regs => f Dst = a) Loop; [tloop 1%nat IH ltac:(rewrite ?Hi) ltac:(first [assumption|lts])|].
  startt f r. do 1 stt. tenter Loop. tauto.
Qed.
Lemma aal_cas_progress e c b n a old new t : progress e (aal_cas_fn c b n a old new t) a n 12.
Proof.
  destruct t as [[ac re] fe]. unfold aal_cas_fn. destruct (aa_lse c); unfa; [startt f r; do 8 stt; tend|].
  tinv 2%nat 10%nat (fun f : regs => f Dst = a) Loop; [tloop 2%nat IH ltac:(rewrite ?Hi) ltac:(first [assumption|lts])|].
  startt f r. do 2 stt. tenter Loop. tauto.
Qed.
Lemma aal_casw_progress e b n a old new t x y : progress e (aal_casw_fn b n a old new t) x y 10.
Proof. destruct t as [[ac re] fe]. unfold aal_casw_fn. unfa. startt f r. tline. Qed.

Lemma aal_load128_progress c b a t : progress (aa_e c) (aal_load128_fn c b a t) a 16 5.
Proof.
  unfold aal_load128_fn. set (e := aa_e c). cbv zeta. destruct t as [o0 fe|o0 fe|ac re]; unfa; [startt f r; tline|startt f r; tline|].
  destruct (aa_lse c); [startt f r; tline|].
  tinv 0%nat 5%nat (fun f : regs => f Src = a) Loop.
  { do 3 stt; rewrite Hi, scp_may_hit; match goal with |- match (if ?b then _ else _) with _ => _ end => destruct b eqn:HB end; cbnx.
    - tline.
    - retry IH HB Hi. }
  startt f r. apply Loop. tauto.
Qed.
Lemma aal_store128_progress c b a v t : progress (aa_e c) (aal_store128_fn c b a v t) a 16 6.
Proof.
  unfold aal_store128_fn. set (e := aa_e c). cbv zeta. destruct t as [o0 fa fr|[[ac re] fe]|[[ac re] fe]]; unfa; [startt f r; tline|startt f r; tline|].
  tinv 1%nat 5%nat (fun f : regs => f Dst = a) Loop.
  { do 3 stt; rewrite Hi, scp_may_hit; match goal with |- match (if ?b then _ else _) with _ => _ end => destruct b eqn:HB end; cbnx.
    - tline.
    - retry IH HB Hi. }
  startt f r. do 1 stt. tenter Loop. tauto.
Qed.
Lemma aal_swap128_progress c b a v t : progress (aa_e c) (aal_swap128_fn c b a v t) a 16 7.
Proof.
  unfold aal_swap128_fn. set (e := aa_e c). cbv zeta. destruct t as [[ac re] fe]. destruct (aa_lse128 c); unfa; [startt f r; tline|].
  tinv 1%nat 6%nat (fun f : regs => f Dst = a) Loop.
  { do 3 stt; rewrite Hi, scp_may_hit; match goal with |- match (if ?b then _ else _) with _ => _ end => destruct b eqn:HB end; cbnx.
    - tline.
    - retry IH HB Hi. }
  startt f r. do 1 stt. tenter Loop. tauto.
Qed.
Lemma aal_cas128_progress c b a old new t : progress (aa_e c) (aal_cas128_fn c b a old new t) a 16 16.
Proof.
  unfold aal_cas128_fn. set (e := aa_e c). cbv zeta. destruct t as [[ac re] fe]. destruct (aa_lse c); unfa; [startt f r; do 10 stt; tend|].
  tinv 2%nat 14%nat (fun f : regs => f Dst = a) Loop.
  { do 7 stt. match goal with |- match (if ?b then _ else _) with _ => _ end => destruct b end; cbnx.
    - do 2 stt. rewrite Hi, scp_may_hit; match goal with |- match (if ?b then _ else _) with _ => _ end => destruct b eqn:HB end; cbnx.
      + tline.
      + retry IH HB Hi.
    - stt. rewrite Hi, scp_may_hit; match goal with |- match (if ?b then _ else _) with _ => _ end => destruct b eqn:HB end; cbnx.
      + tline.
      + retry IH HB Hi. }
  startt f r. do 2 stt. tenter Loop. tauto.
Qed.
