(* operand contracts and progress of the PowerPC blocks *)
From Verif Require Import Prog Arch_powerpc Fields P_powerpc.

Lemma pp_load_contract e n a t : contract e (pp_load_fn n a t).
Proof. unfold pp_load_fn. destruct t; unfa; contract_tac. Qed.
Lemma pp_load_progress e n a t x y : progress e (pp_load_fn n a t) x y 6.
Proof. unfold pp_load_fn. destruct t; unfa; startt f0 r; tline. Qed.
Lemma pp_store_contract e c n a v t : contract e (pp_store_fn c n a v t).
Proof. unfold pp_store_fn. unfa. contract_tac. Qed.
Lemma pp_store_progress e c n a v t x y : progress e (pp_store_fn c n a v t) x y 2.
Proof. unfold pp_store_fn. unfa. startt f r. tline. Qed.
Lemma pp_swap_contract e c n a v t : contract e (pp_swap_fn c n a v t).
Proof. destruct t as [ac re]. unfold pp_swap_fn. unfa. contract_tac. Qed.
Lemma pp_swap_progress e c n a v t : progress e (pp_swap_fn c n a v t) a n 6.
Proof.
  destruct t as [ac re]. unfold pp_swap_fn. unfa. 
  tinv 1%nat 5%nat (fun f : regs => f Dst = a) Loop; [tloop 1%nat IH ltac:(rewrite ?Hi) ltac:(first [assumption|lts])|].
  startt f r. do 1 stt. tenter Loop. tauto.
Qed.
Lemma pp_cas_contract e c n a old new t : contract e (pp_cas_fn c n a old new t).
Proof. destruct t as [[al su] re]. unfold pp_cas_fn. unfa. contract_tac. Qed.
Lemma pp_cas_progress e c n a old new t : progress e (pp_cas_fn c n a old new t) a n 11.
Proof.
  destruct t as [[al su] re]. unfold pp_cas_fn. unfa. 
  tinv 1%nat 10%nat (fun f : regs => f Dst = a) Loop; [tloop 1%nat IH ltac:(rewrite ?Hi) ltac:(first [assumption|lts])|].
  startt f r. do 1 stt. tenter Loop. tauto.
Qed.
Lemma pp_casw_contract e c n a old new t : contract e (pp_casw_fn c n a old new t).
Proof. destruct t as [[al su] re]. unfold pp_casw_fn. unfa. contract_tac. Qed.
Lemma pp_casw_progress e c n a old new t x y : progress e (pp_casw_fn c n a old new t) x y 9.
Proof. destruct t as [[al su] re]. unfold pp_casw_fn. unfa. startt f r. tline. Qed.
Lemma pp_swap_sub_contract e c n a v t : contract e (pp_swap_sub_fn c n a v t).
Proof. destruct t as [ac re]. unfold pp_swap_sub_fn. destruct create_sub_word_mask_values as [[dst shift] mask]. unfa. contract_tac. Qed.
Lemma pp_swap_sub_progress e c n a v t : progress e (pp_swap_sub_fn c n a v t) (fst (fst (create_sub_word_mask_values (pp_arch c) (pp_e c) (pp_w c) (pp_w c) n a))) 4 10.
Proof.
  destruct t as [ac re]. unfold pp_swap_sub_fn. destruct create_sub_word_mask_values as [[dst shift] mask]. cbn [fst]. unfa. 
  tinv 2%nat 8%nat (fun f : regs => f Dst = dst) Loop; [tloop 2%nat IH ltac:(rewrite ?Hi) ltac:(first [assumption|lts])|].
  startt f r. do 2 stt. tenter Loop. tauto.
Qed.
Lemma pp_cas_sub_contract e c n a old new t : contract e (pp_cas_sub_fn c n a old new t).
Proof. destruct t as [[al su] re]. unfold pp_cas_sub_fn. destruct create_sub_word_mask_values as [[dst shift] mask]. unfa. contract_tac. Qed.
Lemma pp_cas_sub_progress e c n a old new t : progress e (pp_cas_sub_fn c n a old new t) (fst (fst (create_sub_word_mask_values (pp_arch c) (pp_e c) (pp_w c) (pp_w c) n a))) 4 17.
Proof.
  destruct t as [[al su] re]. unfold pp_cas_sub_fn. destruct create_sub_word_mask_values as [[dst shift] mask]. cbn [fst]. unfa. 
  tinv 3%nat 14%nat (fun f : regs => f Dst = dst) Loop; [tloop 3%nat IH ltac:(rewrite ?Hi) ltac:(first [assumption|lts])|].
  startt f r. do 3 stt. tenter Loop. tauto.
Qed.
Lemma pp_casw_sub_contract e c n a old new t : contract e (pp_casw_sub_fn c n a old new t).
Proof. destruct t as [[al su] re]. unfold pp_casw_sub_fn. destruct create_sub_word_mask_values as [[dst shift] mask]. unfa. contract_tac. Qed.
Lemma pp_casw_sub_progress e c n a old new t x y : progress e (pp_casw_sub_fn c n a old new t) x y 15.
Proof. destruct t as [[al su] re]. unfold pp_casw_sub_fn. destruct create_sub_word_mask_values as [[dst shift] mask]. unfa. startt f r. tline. Qed.
Lemma pp_load128_contract e c a t : contract e (pp_load128_fn c a t).
Proof. unfold pp_load128_fn. destruct t; unfa; contract_tac. Qed.
Lemma pp_load128_progress e c a t x y : progress e (pp_load128_fn c a t) x y 6.
Proof. unfold pp_load128_fn. destruct t; unfa; startt f0 r; tline. Qed.
Lemma pp_store128_contract e c a v t : contract e (pp_store128_fn c a v t).
Proof. unfold pp_store128_fn. unfa. contract_tac. Qed.
Lemma pp_store128_progress e c a v t x y : progress e (pp_store128_fn c a v t) x y 2.
Proof. unfold pp_store128_fn. unfa. startt f r. tline. Qed.

Lemma pp_swap128_contract e c a v t : contract e (pp_swap128_fn c a v t).
Proof. destruct t as [ac re]. unfold pp_swap128_fn. unfa. destruct (pp_e c); contract_tac. Qed.
Lemma pp_cas128_contract e c a old new t : contract e (pp_cas128_fn c a old new t).
Proof. destruct t as [[al su] re]. unfold pp_cas128_fn. unfa. destruct (pp_e c); contract_tac. Qed.
Lemma pp_casw128_contract e c a old new t : contract e (pp_casw128_fn c a old new t).
Proof. destruct t as [[al su] re]. unfold pp_casw128_fn. unfa. destruct (pp_e c); contract_tac. Qed.
Lemma pp_casw128_progress e c a old new t x y : progress e (pp_casw128_fn c a old new t) x y 11.
Proof. destruct t as [[al su] re]. unfold pp_casw128_fn. unfa. destruct (pp_e c); startt f r; tline. Qed.
(* a failed stqcx. was disturbed *)
Lemma scp16 e m m' a (Hm : wf_mem m) (Hm' : wf_mem m') : rd e m a 16 = rd e m' a 16 ->
  (rd e m a 8 =? rd e m' a 8) && (rd e m (a + 8) 8 =? rd e m' (a + 8) 8) = true.
Proof. intros E. destruct (rd16_inv e m m' a Hm Hm' E) as [-> ->]. now rewrite !Z.eqb_refl. Qed.
Lemma pp_swap128_progress c a v t : progress (pp_e c) (pp_swap128_fn c a v t) a 16 6.
Proof.
  destruct t as [ac re]. unfold pp_swap128_fn. unfa. destruct (pp_e c);
  ( tinv 1%nat 5%nat (fun f : regs => f Dst = a) Loop;
    [ do 3 stt; rewrite Hi, scp_may_hit;
      match goal with |- match (if ?b then _ else _) with _ => _ end => destruct b eqn:HB end; cbnx;
      [ tline
      | stt; cbn [Z.eqb]; eapply T_back; [|repeat constructor|apply IH; cbnx; [lts|exact Hi]];
        destruct d1; [|lia]; exfalso; destruct (Hd1 eq_refl) as [X1 X2]; rewrite X1 in HB;
        rewrite scp16 in HB by (auto; congruence); discriminate ]
    | startt f r; stt; tenter Loop; tauto ]).
Qed.
Lemma pp_cas128_progress c a old new t : progress (pp_e c) (pp_cas128_fn c a old new t) a 16 13.
Proof.
  destruct t as [[al su] re]. unfold pp_cas128_fn. unfa. destruct (pp_e c);
  ( tinv 1%nat 12%nat (fun f : regs => f Dst = a) Loop;
    [ do 6 stt; match goal with |- match (if ?b then _ else _) with _ => _ end => destruct b end; cbnx; [tline|];
      stt; rewrite Hi, scp_may_hit;
      match goal with |- match (if ?b then _ else _) with _ => _ end => destruct b eqn:HB end; cbnx;
      [ tline
      | stt; cbn [Z.eqb]; eapply T_back; [|repeat constructor|apply IH; cbnx; [lts|exact Hi]];
        match goal with |- (1 <= ?X)%nat => destruct X eqn:Z0 end; [|lia]; exfalso; tzero;
        repeat match goal with K : o_ok _ = true |- _ => rewrite K in *; clear K end;
        rewrite scp16 in HB by (auto; congruence); discriminate ]
    | startt f r; stt; tenter Loop; tauto ]).
Qed.
