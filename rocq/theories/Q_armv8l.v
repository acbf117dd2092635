(* operand contracts and progress of the src/arch_legacy Armv8 blocks *)
From Verif Require Import Prog Arch_armv8l Fields Wide P_legacy P_armv8l Q_arm.
Ltac unfb := P_armv8l.unfb.

Lemma a8l_load_contract e b n a t : contract e (a8l_load_fn b n a t).
Proof. unfold a8l_load_fn. unfb. contract_tac. Qed.
Lemma a8l_store_contract e b n a v t : contract e (a8l_store_fn b n a v t).
Proof. unfold a8l_store_fn. unfb. contract_tac. Qed.
Lemma a8l_swap_contract e b n a v t : contract e (a8l_swap_fn b n a v t).
Proof. unfold a8l_swap_fn. unfb. contract_tac. Qed.
Lemma a8l_cas_contract e m b n a old new t : contract e (a8l_cas_fn m b n a old new t).
Proof. unfold a8l_cas_fn. unfb. contract_tac. Qed.
Lemma a8l_casw_contract e m b n a old new t : contract e (a8l_casw_fn m b n a old new t).
Proof. unfold a8l_casw_fn. unfb. contract_tac. Qed.
Lemma a8l_load64_contract e c b a t : contract e (a8l_load64_fn c b a t).
Proof. unfold a8l_load64_fn. unfb. contract_tac. Qed.
Lemma a8l_store64_contract e c b a v t : contract e (a8l_store64_fn c b a v t).
Proof. unfold a8l_store64_fn. unfb. contract_tac. Qed.
Lemma a8l_swap64_contract e c b a v t : contract e (a8l_swap64_fn c b a v t).
Proof. unfold a8l_swap64_fn. unfb. contract_tac. Qed.
Lemma a8l_cas64_contract e c b a old new t : contract e (a8l_cas64_fn c b a old new t).
Proof. unfold a8l_cas64_fn. unfb. contract_tac. Qed.
Lemma a8l_casw64_contract e c b a old new t : contract e (a8l_casw64_fn c b a old new t).
Proof. unfold a8l_casw64_fn. unfb. contract_tac. Qed.
Lemma a8l_load_progress e b n a t x y : progress e (a8l_load_fn b n a t) x y 2.
Proof. unfold a8l_load_fn. unfb. startt f r. tline. Qed.
Lemma a8l_store_progress e b n a v t x y : progress e (a8l_store_fn b n a v t) x y 2.
Proof. unfold a8l_store_fn. unfb. startt f r. tline. Qed.
Lemma a8l_swap_progress e b n a v t : progress e (a8l_swap_fn b n a v t) a n 7.
Proof.
  unfold a8l_swap_fn. unfb.
  tinv 1%nat 6%nat (fun f : regs => f Dst = a) Loop; [tloop 1%nat IH ltac:(stk; rewrite ?Hi) ltac:(first [assumption|lts])|].
  startt f r. stt. tenter Loop. tauto.
Qed.
Lemma a8l_cas_progress e m b n a old new t : progress e (a8l_cas_fn m b n a old new t) a n 12.
Proof.
  unfold a8l_cas_fn. unfb.
  tinv 2%nat 10%nat (fun f : regs => f Dst = a) Loop; [tloop 2%nat IH ltac:(stk; rewrite ?Hi) ltac:(first [assumption|lts])|].
  startt f r. do 2 stt. tenter Loop. tauto.
Qed.
Lemma a8l_casw_progress e m b n a old new t x y : progress e (a8l_casw_fn m b n a old new t) x y 10.
Proof. unfold a8l_casw_fn. unfb. startt f r; tlinek. Qed.
Lemma a8l_load64_progress e c b a t x y : progress e (a8l_load64_fn c b a t) x y 3.
Proof. unfold a8l_load64_fn. unfb. startt f r. tline. Qed.
Lemma a8l_store64_progress c b a v t : progress (a8_e c) (a8l_store64_fn c b a v t) a 8 6.
Proof.
  unfold a8l_store64_fn. set (e := a8_e c). unfb.
  tinv 1%nat 5%nat (fun f : regs => f Dst = a) Loop.
  { do 3 stt; rewrite Hi, scp_may_hit; scfail HB; [do 2 (stt; stk); tend|retry4 IH HB Hi]. }
  startt f r. stt. tenter Loop. tauto.
Qed.
Lemma a8l_swap64_progress c b a v t : progress (a8_e c) (a8l_swap64_fn c b a v t) a 8 7.
Proof.
  unfold a8l_swap64_fn. set (e := a8_e c). unfb.
  tinv 1%nat 6%nat (fun f : regs => f Dst = a) Loop.
  { do 3 stt; rewrite Hi, scp_may_hit; scfail HB; [do 2 (stt; stk); tline|retry4 IH HB Hi]. }
  startt f r. stt. tenter Loop. tauto.
Qed.
Lemma a8l_cas64_progress c b a old new t : progress (a8_e c) (a8l_cas64_fn c b a old new t) a 8 14.
Proof.
  unfold a8l_cas64_fn. set (e := a8_e c). unfb.
  tinv 2%nat 12%nat (fun f : regs => f Dst = a) Loop.
  { do 6 stt. match goal with |- match (if ?b then _ else _) with _ => _ end => destruct b end; cbnx; [tline|].
    stt. rewrite Hi, scp_may_hit; scfail HB; [do 2 (stt; stk); tline|retry4 IH HB Hi]. }
  startt f r. do 2 stt. tenter Loop. tauto.
Qed.
Lemma a8l_casw64_progress e c b a old new t x y : progress e (a8l_casw64_fn c b a old new t) x y 12.
Proof. unfold a8l_casw64_fn. unfb. startt f r; tlinek. Qed.
