(* operand contracts and progress of the Armv6/Armv7 and Armv8 AArch32 blocks *)
From Verif Require Import Prog Arch_arm Arch_armv8 Fields Wide P_arm P_armv8.

Lemma pay_one d s : (d + s - 1 = 0 -> 1 <= s -> d = 0)%nat. Proof. lia. Qed.
Lemma le_skip d s : (1 <= s -> 1 <= d + s)%nat. Proof. lia. Qed.

Lemma ar_load_contract e n a t : contract e (ar_load_fn n a t).
Proof. unfold ar_load_fn. contract_tac. Qed.
Lemma ar_store_contract e n a v t : contract e (ar_store_fn n a v t).
Proof. unfold ar_store_fn. contract_tac. Qed.
Lemma ar_swap_contract e n a v t : contract e (ar_swap_fn n a v t).
Proof. unfold ar_swap_fn. unfa. contract_tac. Qed.
Lemma ar_cas_contract e c n a old new t : contract e (ar_cas_fn c n a old new t).
Proof. unfold ar_cas_fn. unfa. destruct t; contract_tac. Qed.
Lemma ar_casw_contract e c n a old new t : contract e (ar_casw_fn c n a old new t).
Proof. unfold ar_casw_fn. unfa. destruct t; contract_tac. Qed.
Lemma ar_load64_contract e c a t : contract e (ar_load64_fn c a t).
Proof. unfold ar_load64_fn. unfa. contract_tac. Qed.
Lemma ar_store64_contract e c a v t : contract e (ar_store64_fn c a v t).
Proof. unfold ar_store64_fn. unfa. contract_tac. Qed.
Lemma ar_swap64_contract e c a v t : contract e (ar_swap64_fn c a v t).
Proof. unfold ar_swap64_fn. unfa. contract_tac. Qed.
Lemma ar_cas64_contract e c a old new t : contract e (ar_cas64_fn c a old new t).
Proof. unfold ar_cas64_fn. unfa. destruct t; contract_tac. Qed.
Lemma ar_casw64_contract e c a old new t : contract e (ar_casw64_fn c a old new t).
Proof. unfold ar_casw64_fn. unfa. destruct t; contract_tac. Qed.

Lemma ar_load_progress e n a t x y : progress e (ar_load_fn n a t) x y 2.
Proof. unfold ar_load_fn. startt f r. tline. Qed.
Lemma ar_store_progress e n a v t x y : progress e (ar_store_fn n a v t) x y 3.
Proof. unfold ar_store_fn. startt f r. tline. Qed.
Ltac stk := cbn [b2z Z.eqb Pos.eqb negb].
Lemma ar_swap_progress e n a v t : progress e (ar_swap_fn n a v t) a n 7.
Proof.
  destruct t as [fa fr]. unfold ar_swap_fn. unfa.
  tinv 1%nat 6%nat (fun f : regs => f Dst = a) Loop; [tloop 1%nat IH ltac:(stk; rewrite ?Hi) ltac:(first [assumption|lts])|].
  startt f r. stt. tenter Loop. tauto.
Qed.
Lemma pay5 d5 d4 d3 d2 d1 s : (d5 + (d4 + (d3 + (d2 + (d1 + s)))) - 1 = 0 -> 1 <= s -> d5 = 0 /\ d4 = 0)%nat. Proof. lia. Qed.
Lemma sk5 d5 d4 d3 d2 d1 s : (1 <= s -> 1 <= d5 + (d4 + (d3 + (d2 + (d1 + s)))))%nat. Proof. lia. Qed.
(* back edge of a loop that re-reads before storing *)
Ltac scfail HB := match goal with |- match (if ?b then _ else _) with _ => _ end => destruct b eqn:HB end; cbnx.
(* the loops of cmpxchg_release and cmpxchg_acqrel, entered at "2:" with a reservation for value [v] *)
Lemma ar_cas_loop e c n a old new t : (exists ff, t = CRel ff \/ t = CAcqRel ff) ->
  forall k f v w x, f Dst = a -> (x = 0%nat -> v = w) ->
       T e (ar_cas_fn c n a old new t) a n 18 k (14 + 18 * x) w (mkst 4 f (Some [(a, n, v)])).
Proof.
  intros (ff & [-> | ->]); unfold ar_cas_fn; unfa; induction k as [k IH] using lt_wf_ind; intros f v w x Hd Hx.
  all: stt; stt; rewrite Hd, sc_may_hit; scfail HB.
  1, 3: stt; stt; stk; tline.
  all: stt; stt; stk; do 2 stt; stt; rewrite Hd; match goal with |- match (if ?b then _ else _) with _ => _ end => destruct b end; [|tline].
  all: assert (1 <= d0 + (d + x))%nat as G1.
  1, 3: destruct (d0 + (d + x))%nat eqn:Z0; [|apply le_n_S, Nat.le_0_l]; exfalso; tzero; subst v;
       repeat match goal with K : o_ok _ = true |- _ => rewrite K in HB; clear K end;
       repeat match goal with K : rd _ (o_mem _) _ _ = _ |- _ => rewrite K in HB; clear K end; rewrite Z.eqb_refl in HB; discriminate.
  all: eapply T_back1; [|apply sk5, G1|apply IH; cbnx]; [repeat constructor|lts|assumption|];
       intros X; destruct (pay5 _ _ _ _ _ _ X G1) as [Z1 Z2]; clear X; tzero; congruence.
Qed.
Lemma ar_cas_progress e c n a old new t : progress e (ar_cas_fn c n a old new t) a n 18.
Proof.
  unfold ar_cas_fn. unfa. destruct t as [fs ff|ff|ff].
  - tinv 0%nat 14%nat (fun f : regs => f Dst = a) Loop; [tloop 0%nat IH ltac:(stk; rewrite ?Hi) ltac:(first [assumption|lts])|].
    startt f r. eapply T_weak; [|apply Loop; tauto]. repeat constructor.
  - startt f r. destruct Hin as (Hd & _). do 3 stt. rewrite Hd. match goal with |- match (if ?b then _ else _) with _ => _ end => destruct b end; [tline|].
    stt. eapply T_weakx; [|apply (ar_cas_loop e c n a old new (CRel ff)); cbnx; eauto]; [repeat constructor|]. intros X. tzero. congruence.
  - startt f r. destruct Hin as (Hd & _). do 3 stt. rewrite Hd. match goal with |- match (if ?b then _ else _) with _ => _ end => destruct b end; [tline|].
    stt. eapply T_weakx; [|apply (ar_cas_loop e c n a old new (CAcqRel ff)); cbnx; eauto]; [repeat constructor|]. intros X. tzero. congruence.
Qed.
Ltac tlinek := trun 1000%nat I ltac:(stk) ltac:(idtac).
Lemma ar_casw_progress e c n a old new t x y : progress e (ar_casw_fn c n a old new t) x y 11.
Proof. unfold ar_casw_fn. unfa. destruct t; startt f r; tlinek. Qed.
Lemma ar_load64_progress e c a t x y : progress e (ar_load64_fn c a t) x y 3.
Proof. unfold ar_load64_fn. unfa. startt f r. tline. Qed.
(* a failed strexd was disturbed: lost reservation or changed memory *)
Lemma scp4 e m m' a (Hm : wf_mem m) (Hm' : wf_mem m') : rd e m a 8 = rd e m' a 8 ->
  (rd e m a 4 =? rd e m' a 4) && (rd e m (a + 4) 4 =? rd e m' (a + 4) 4) = true.
Proof. intros E. destruct (rd2_inv e m m' a 4 Hm Hm' ltac:(lia) E) as [-> ->]. now rewrite !Z.eqb_refl. Qed.
Ltac retry4 IH HB Hi :=
  do 2 (stt; stk); eapply T_back; [|repeat constructor|apply IH; cbnx; [lts|exact Hi]];
  match goal with |- (1 <= ?X)%nat => destruct X eqn:Z0 end; [|apply le_n_S, Nat.le_0_l]; exfalso; tzero;
  repeat match goal with K : o_ok _ = true |- _ => rewrite K in *; clear K end;
  rewrite scp4 in HB by (auto; congruence); discriminate.
Lemma ar_store64_progress c a v t : progress (ar_e c) (ar_store64_fn c a v t) a 8 7.
Proof.
  unfold ar_store64_fn. set (e := ar_e c). unfa.
  tinv 1%nat 6%nat (fun f : regs => f Dst = a) Loop.
  { do 3 stt; rewrite Hi, scp_may_hit; scfail HB; [do 2 (stt; stk); tline|retry4 IH HB Hi]. }
  startt f r. stt. tenter Loop. tauto.
Qed.
Lemma ar_swap64_progress c a v t : progress (ar_e c) (ar_swap64_fn c a v t) a 8 7.
Proof.
  unfold ar_swap64_fn. set (e := ar_e c). unfa.
  tinv 1%nat 6%nat (fun f : regs => f Dst = a) Loop.
  { do 3 stt; rewrite Hi, scp_may_hit; scfail HB; [do 2 (stt; stk); tline|retry4 IH HB Hi]. }
  startt f r. stt. tenter Loop. tauto.
Qed.
Lemma pay7 d7 d6 d5 d4 d3 d2 d1 s : (d7 + (d6 + (d5 + (d4 + (d3 + (d2 + (d1 + s)))))) - 1 = 0 -> 1 <= s -> d7 = 0 /\ d6 = 0 /\ d5 = 0 /\ d4 = 0)%nat. Proof. lia. Qed.
Lemma sk7 d7 d6 d5 d4 d3 d2 d1 s : (1 <= s -> 1 <= d7 + (d6 + (d5 + (d4 + (d3 + (d2 + (d1 + s)))))))%nat. Proof. lia. Qed.
Lemma ar_cas64_loop c a old new t : (exists ff, t = CRel ff \/ t = CAcqRel ff) ->
  forall k f m w x, wf_mem m -> f Dst = a -> (x = 0%nat -> rd (ar_e c) m a 8 = w) ->
       T (ar_e c) (ar_cas64_fn c a old new t) a 8 22 k (16 + 22 * x) w
         (mkst 6 f (Some [(a, 4, rd (ar_e c) m a 4); (a + 4, 4, rd (ar_e c) m (a + 4) 4)])).
Proof.
  intros (ff & [-> | ->]); unfold ar_cas64_fn; unfa; generalize (ar_e c); intros e;
  induction k as [k IH] using lt_wf_ind; intros f m w x Hm Hd Hx.
  all: stt; stt; rewrite Hd, scp_may_hit; scfail HB.
  1, 3: stt; stt; stk; tline.
  all: stt; stt; stk; do 4 stt; stt; rewrite Hd; match goal with |- match (if ?b then _ else _) with _ => _ end => destruct b end; [|tline].
  all: assert (1 <= d0 + (d + x))%nat as G1.
  1, 3: destruct (d0 + (d + x))%nat eqn:Z0; [|apply le_n_S, Nat.le_0_l]; exfalso; tzero;
       repeat match goal with K : o_ok _ = true |- _ => rewrite K in HB; clear K end;
       rewrite scp4 in HB by (auto; congruence); discriminate.
  all: eapply T_back1; [|apply sk7, G1|apply IH; cbnx]; [repeat constructor|lts|assumption|assumption|];
       intros X; destruct (pay7 _ _ _ _ _ _ _ _ X G1) as (Z1 & Z2 & Z3 & Z4); clear X; tzero; congruence.
Qed.
Lemma ar_cas64_progress c a old new t : progress (ar_e c) (ar_cas64_fn c a old new t) a 8 22.
Proof.
  unfold ar_cas64_fn. unfa. destruct t as [fs ff|ff|ff].
  - set (e := ar_e c). tinv 0%nat 16%nat (fun f : regs => f Dst = a) Loop.
    { do 6 stt. match goal with |- match (if ?b then _ else _) with _ => _ end => destruct b end; cbnx; [tline|].
      stt. rewrite Hi, scp_may_hit; scfail HB; [do 2 (stt; stk); tline|retry4 IH HB Hi]. }
    startt f r. eapply T_weak; [|apply Loop; tauto]. repeat constructor.
  - startt f r. destruct Hin as (Hd & _). do 5 stt. rewrite Hd. match goal with |- match (if ?b then _ else _) with _ => _ end => destruct b end; [tline|].
    stt. eapply T_weakx; [|apply (ar_cas64_loop c a old new (CRel ff)); cbnx; eauto]; [repeat constructor|]. intros X. tzero. congruence.
  - startt f r. destruct Hin as (Hd & _). do 5 stt. rewrite Hd. match goal with |- match (if ?b then _ else _) with _ => _ end => destruct b end; [tline|].
    stt. eapply T_weakx; [|apply (ar_cas64_loop c a old new (CAcqRel ff)); cbnx; eauto]; [repeat constructor|]. intros X. tzero. congruence.
Qed.
Lemma ar_casw64_progress e c a old new t x y : progress e (ar_casw64_fn c a old new t) x y 13.
Proof. unfold ar_casw64_fn. unfa. destruct t; startt f r; tlinek. Qed.

(* ---- Armv8 ---- *)
Lemma a8_load_contract e n a t : contract e (a8_load_fn n a t).
Proof. unfold a8_load_fn. contract_tac. Qed.
Lemma a8_store_contract e n a v t : contract e (a8_store_fn n a v t).
Proof. unfold a8_store_fn. contract_tac. Qed.
Lemma a8_swap_contract e n a v t : contract e (a8_swap_fn n a v t).
Proof. unfold a8_swap_fn. unfb. contract_tac. Qed.
Lemma a8_cas_contract e m n a old new t : contract e (a8_cas_fn m n a old new t).
Proof. unfold a8_cas_fn. unfb. contract_tac. Qed.
Lemma a8_casw_contract e m n a old new t : contract e (a8_casw_fn m n a old new t).
Proof. unfold a8_casw_fn. unfb. contract_tac. Qed.
Lemma a8_load64_contract e c a t : contract e (a8_load64_fn c a t).
Proof. unfold a8_load64_fn. unfb. contract_tac. Qed.
Lemma a8_store64_contract e c a v t : contract e (a8_store64_fn c a v t).
Proof. unfold a8_store64_fn. unfb. contract_tac. Qed.
Lemma a8_swap64_contract e c a v t : contract e (a8_swap64_fn c a v t).
Proof. unfold a8_swap64_fn. unfb. contract_tac. Qed.
Lemma a8_cas64_contract e c a old new t : contract e (a8_cas64_fn c a old new t).
Proof. unfold a8_cas64_fn. unfb. contract_tac. Qed.
Lemma a8_casw64_contract e c a old new t : contract e (a8_casw64_fn c a old new t).
Proof. unfold a8_casw64_fn. unfb. contract_tac. Qed.
Lemma a8_load_progress e n a t x y : progress e (a8_load_fn n a t) x y 1.
Proof. unfold a8_load_fn. startt f r. tline. Qed.
Lemma a8_store_progress e n a v t x y : progress e (a8_store_fn n a v t) x y 1.
Proof. unfold a8_store_fn. startt f r. tline. Qed.
Lemma a8_swap_progress e n a v t : progress e (a8_swap_fn n a v t) a n 5.
Proof.
  unfold a8_swap_fn. unfb.
  tinv 0%nat 5%nat (fun f : regs => f Dst = a) Loop; [tloop 0%nat IH ltac:(stk; rewrite ?Hi) ltac:(first [assumption|lts])|].
  startt f r. apply Loop. tauto.
Qed.
Lemma a8_cas_progress e m n a old new t : progress e (a8_cas_fn m n a old new t) a n 9.
Proof.
  unfold a8_cas_fn. unfb.
  tinv 0%nat 9%nat (fun f : regs => f Dst = a) Loop; [tloop 0%nat IH ltac:(stk; rewrite ?Hi) ltac:(first [assumption|lts])|].
  startt f r. apply Loop. tauto.
Qed.
Lemma a8_casw_progress e m n a old new t x y : progress e (a8_casw_fn m n a old new t) x y 7.
Proof. unfold a8_casw_fn. unfb. startt f r; tlinek. Qed.
Lemma a8_load64_progress e c a t x y : progress e (a8_load64_fn c a t) x y 2.
Proof. unfold a8_load64_fn. unfb. startt f r. tline. Qed.
Lemma a8_store64_progress c a v t : progress (a8_e c) (a8_store64_fn c a v t) a 8 5.
Proof.
  unfold a8_store64_fn. set (e := a8_e c). unfb.
  tinv 0%nat 5%nat (fun f : regs => f Dst = a) Loop.
  { do 3 stt; rewrite Hi, scp_may_hit; scfail HB; [do 2 (stt; stk); tend|retry4 IH HB Hi]. }
  startt f r. apply Loop. tauto.
Qed.
Lemma a8_swap64_progress c a v t : progress (a8_e c) (a8_swap64_fn c a v t) a 8 5.
Proof.
  unfold a8_swap64_fn. set (e := a8_e c). unfb.
  tinv 0%nat 5%nat (fun f : regs => f Dst = a) Loop.
  { do 3 stt; rewrite Hi, scp_may_hit; scfail HB; [do 2 (stt; stk); tend|retry4 IH HB Hi]. }
  startt f r. apply Loop. tauto.
Qed.
Lemma a8_cas64_progress c a old new t : progress (a8_e c) (a8_cas64_fn c a old new t) a 8 11.
Proof.
  unfold a8_cas64_fn. set (e := a8_e c). unfb.
  tinv 0%nat 11%nat (fun f : regs => f Dst = a) Loop.
  { do 6 stt. match goal with |- match (if ?b then _ else _) with _ => _ end => destruct b end; cbnx; [tline|].
    stt. rewrite Hi, scp_may_hit; scfail HB; [do 2 (stt; stk); tline|retry4 IH HB Hi]. }
  startt f r. apply Loop. tauto.
Qed.
Lemma a8_casw64_progress e c a old new t x y : progress e (a8_casw64_fn c a old new t) x y 9.
Proof. unfold a8_casw64_fn. unfb. startt f r; tlinek. Qed.
