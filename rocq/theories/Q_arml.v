(* operand contracts and progress of the src/arch_legacy Armv6/Armv7 blocks *)
From Verif Require Import Prog Arch_arml Fields Wide P_legacy P_arml Q_arm.
Ltac unfa := P_arml.unfa.
(* step over a load from a private buffer, whatever it yields *)
Ltac sttg := stt; repeat match goal with |- context[if ?q =? ?p then ?x else ?j] => let z := fresh "z" in set (z := if q =? p then x else j); clearbody z end.

Lemma arl_load_contract e b n a t : contract e (arl_load_fn b n a t).
Proof. unfold arl_load_fn. unfa. contract_tac. Qed.
Lemma arl_store_contract e b n a v t : contract e (arl_store_fn b n a v t).
Proof. unfold arl_store_fn. unfa. contract_tac. Qed.
Lemma arl_swap_contract e b n a v t : contract e (arl_swap_fn b n a v t).
Proof. unfold arl_swap_fn. unfa. contract_tac. Qed.
Lemma arl_cas_contract e c b n a old new t : contract e (arl_cas_fn c b n a old new t).
Proof. unfold arl_cas_fn. unfa. destruct t; contract_tac. Qed.
Lemma arl_casw_contract e c b n a old new t : contract e (arl_casw_fn c b n a old new t).
Proof. unfold arl_casw_fn. unfa. destruct t; contract_tac. Qed.
Lemma arl_load64_contract e c b a t : contract e (arl_load64_fn c b a t).
Proof. unfold arl_load64_fn. unfa. contract_tac. Qed.
Lemma arl_store64_contract e c b a v t : contract e (arl_store64_fn c b a v t).
Proof. unfold arl_store64_fn. unfa. contract_tac. Qed.
Lemma arl_swap64_contract e c b a v t : contract e (arl_swap64_fn c b a v t).
Proof. unfold arl_swap64_fn. unfa. contract_tac. Qed.
Lemma arl_cas64_contract e c b a old new t : contract e (arl_cas64_fn c b a old new t).
Proof. unfold arl_cas64_fn. unfa. destruct t; contract_tac. Qed.
Lemma arl_casw64_contract e c b a old new t : contract e (arl_casw64_fn c b a old new t).
Proof. unfold arl_casw64_fn. unfa. destruct t; contract_tac. Qed.

Lemma arl_load_progress e b n a t x y : progress e (arl_load_fn b n a t) x y 3.
Proof. unfold arl_load_fn. unfa. startt f r. tline. Qed.
Lemma arl_store_progress e b n a v t x y : progress e (arl_store_fn b n a v t) x y 4.
Proof. unfold arl_store_fn. unfa. startt f r. tline. Qed.
Lemma arl_swap_progress e b n a v t : progress e (arl_swap_fn b n a v t) a n 9.
Proof.
  destruct t as [fa fr]. unfold arl_swap_fn. unfa.
  tinv 2%nat 7%nat (fun f : regs => f Dst = a) Loop; [tloop 2%nat IH ltac:(stk; rewrite ?Hi) ltac:(first [assumption|lts])|].
  startt f r. do 2 stt. tenter Loop. tauto.
Qed.
Lemma arl_load64_progress e c b a t x y : progress e (arl_load64_fn c b a t) x y 4.
Proof. unfold arl_load64_fn. unfa. startt f r. tline. Qed.
Lemma arl_store64_progress c b a v t : progress (ar_e c) (arl_store64_fn c b a v t) a 8 8.
Proof.
  unfold arl_store64_fn. set (e := ar_e c). unfa.
  tinv 2%nat 6%nat (fun f : regs => f Dst = a) Loop.
  { do 3 stt; rewrite Hi, scp_may_hit; scfail HB; [do 2 (stt; stk); tline|retry4 IH HB Hi]. }
  startt f r. do 2 stt. tenter Loop. tauto.
Qed.
Lemma arl_swap64_progress c b a v t : progress (ar_e c) (arl_swap64_fn c b a v t) a 8 9.
Proof.
  unfold arl_swap64_fn. set (e := ar_e c). unfa.
  tinv 2%nat 7%nat (fun f : regs => f Dst = a) Loop.
  { do 3 stt; rewrite Hi, scp_may_hit; scfail HB; [do 2 (stt; stk); tline|retry4 IH HB Hi]. }
  startt f r. do 2 stt. tenter Loop. tauto.
Qed.
Lemma arl_cas_loop e c b n a old new t : (exists ff, t = CRel ff \/ t = CAcqRel ff) ->
  forall k f v w x, f Dst = a -> (x = 0%nat -> v = w) ->
       T e (arl_cas_fn c b n a old new t) a n 21 k (15 + 21 * x) w (mkst 6 f (Some [(a, n, v)])).
Proof.
  intros (ff & [-> | ->]); unfold arl_cas_fn; unfa; induction k as [k IH] using lt_wf_ind; intros f v w x Hd Hx.
  all: stt; stt; rewrite Hd, sc_may_hit; scfail HB.
  1, 3: stt; stt; stk; tline.
  all: stt; stt; stk; do 2 stt; stt; rewrite Hd; match goal with |- match (if ?b then _ else _) with _ => _ end => destruct b end; [|tline].
  all: assert (1 <= d0 + (d + x))%nat as G1.
  1, 3: destruct (d0 + (d + x))%nat eqn:Z0; [|apply le_n_S, Nat.le_0_l]; exfalso; tzero; subst v;
       repeat match goal with K : o_ok _ = true |- _ => rewrite K in HB; clear K end;
       repeat match goal with K : rd _ (o_mem _) _ _ = _ |- _ => rewrite K in HB; clear K end; rewrite Z.eqb_refl in HB; discriminate.
  all: eapply T_back1; [|apply sk5, G1|apply IH; cbnx]; [repeat constructor|lts|assumption|];
       intros X; destruct (pay5 _ _ _ _ _ _ X G1) as [Z1 Z2]; clear X; tzero; congruence.
Qed.
Lemma arl_cas_progress e c b n a old new t : progress e (arl_cas_fn c b n a old new t) a n 21.
Proof.
  unfold arl_cas_fn. unfa. destruct t as [fs ff|ff|ff].
  - tinv 2%nat 15%nat (fun f : regs => f Dst = a) Loop; [tloop 2%nat IH ltac:(stk; rewrite ?Hi) ltac:(first [assumption|lts])|].
    startt f r. do 2 stt. eapply T_weak; [|apply Loop; cbnx; tauto]. repeat constructor.
  - startt f r. destruct Hin as (Hd & _). do 2 sttg. do 3 stt. rewrite Hd. match goal with |- match (if ?b then _ else _) with _ => _ end => destruct b end; [tline|].
    stt. eapply T_weakx; [|apply (arl_cas_loop e c b n a old new (CRel ff)); cbnx; eauto]; [repeat constructor|]. intros X. tzero. congruence.
  - startt f r. destruct Hin as (Hd & _). do 2 sttg. do 3 stt. rewrite Hd. match goal with |- match (if ?b then _ else _) with _ => _ end => destruct b end; [tline|].
    stt. eapply T_weakx; [|apply (arl_cas_loop e c b n a old new (CAcqRel ff)); cbnx; eauto]; [repeat constructor|]. intros X. tzero. congruence.
Qed.
Lemma arl_casw_progress e c b n a old new t x y : progress e (arl_casw_fn c b n a old new t) x y 14.
Proof. unfold arl_casw_fn. unfa. destruct t; startt f r; tlinek. Qed.
Lemma arl_cas64_loop c b a old new t : (exists ff, t = CRel ff \/ t = CAcqRel ff) ->
  forall k f m w x, wf_mem m -> f Dst = a -> (x = 0%nat -> rd (ar_e c) m a 8 = w) ->
       T (ar_e c) (arl_cas64_fn c b a old new t) a 8 25 k (17 + 25 * x) w
         (mkst 8 f (Some [(a, 4, rd (ar_e c) m a 4); (a + 4, 4, rd (ar_e c) m (a + 4) 4)])).
Proof.
  intros (ff & [-> | ->]); unfold arl_cas64_fn; unfa; generalize (ar_e c); intros e;
  induction k as [k IH] using lt_wf_ind; intros f m w x Hm Hd Hx.
  all: stt; stt; rewrite Hd, scp_may_hit; scfail HB.
  1, 3: stt; stt; stk; tline.
  all: stt; stt; stk; do 4 stt; stt; rewrite Hd; match goal with |- match (if ?b then _ else _) with _ => _ end => destruct b end; [|tline].
  all: assert (1 <= d0 + (d + x))%nat as G1.
  1, 3: destruct (d0 + (d + x))%nat eqn:Z0; [|apply le_n_S, Nat.le_0_l]; exfalso; tzero;
       repeat match goal with K : o_ok _ = true |- _ => rewrite K in HB; clear K end;
       rewrite scp4 in HB by (auto; congruence); discriminate.
  all: eapply T_back1; [|apply sk7, G1|apply IH; cbnx]; [repeat constructor|lts|assumption|assumption|];
       intros X; destruct (pay7 _ _ _ _ _ _ _ _ X G1) as (Z1 & Z2 & Z3 & Z4); clear X; tzero; congruence.
Qed.
Lemma arl_cas64_progress c b a old new t : progress (ar_e c) (arl_cas64_fn c b a old new t) a 8 25.
Proof.
  unfold arl_cas64_fn. unfa. destruct t as [fs ff|ff|ff].
  - set (e := ar_e c). tinv 2%nat 17%nat (fun f : regs => f Dst = a) Loop.
    { do 6 stt. match goal with |- match (if ?b then _ else _) with _ => _ end => destruct b end; cbnx; [tline|].
      stt. rewrite Hi, scp_may_hit; scfail HB; [do 2 (stt; stk); tline|retry4 IH HB Hi]. }
    startt f r. do 2 stt. eapply T_weak; [|apply Loop; cbnx; tauto]. repeat constructor.
  - startt f r. destruct Hin as (Hd & _). do 2 sttg. do 5 stt. rewrite Hd. match goal with |- match (if ?b then _ else _) with _ => _ end => destruct b end; [tline|].
    stt. eapply T_weakx; [|apply (arl_cas64_loop c b a old new (CRel ff)); cbnx; eauto]; [repeat constructor|]. intros X. tzero. congruence.
  - startt f r. destruct Hin as (Hd & _). do 2 sttg. do 5 stt. rewrite Hd. match goal with |- match (if ?b then _ else _) with _ => _ end => destruct b end; [tline|].
    stt. eapply T_weakx; [|apply (arl_cas64_loop c b a old new (CAcqRel ff)); cbnx; eauto]; [repeat constructor|]. intros X. tzero. congruence.
Qed.
Lemma arl_casw64_progress e c b a old new t x y : progress e (arl_casw64_fn c b a old new t) x y 16.
Proof. unfold arl_casw64_fn. unfa. destruct t; startt f r; tlinek. Qed.
