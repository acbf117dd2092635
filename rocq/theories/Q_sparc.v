(* operand contracts and progress of the SPARC blocks *)
From Verif Require Import Prog Arch_sparc Sub32 P_sparc Q_arm.

Lemma sp_load_contract n a t : contract BE (sp_load_fn n a t).
Proof. destruct t as [t1 t2]. unfold sp_load_fn. contract_tac. Qed.
Lemma sp_store_contract c n a v t : contract BE (sp_store_fn c n a v t).
Proof. destruct t as [t1 t2]. unfold sp_store_fn. contract_tac. Qed.
Lemma sp_swap_contract c n a v t : contract BE (sp_swap_fn c n a v t).
Proof. destruct t as [t1 t2]. unfold sp_swap_fn. unfs. contract_tac. Qed.
Lemma sp_cas_contract c n a old new t : contract BE (sp_cas_fn c n a old new t).
Proof. destruct t as [t1 t2]. unfold sp_cas_fn, sp_move. destruct (sp_v9 c); cbn [app]; unfs; contract_tac. Qed.
Lemma sp_swap_sub_contract c n a v t : contract BE (sp_swap_sub_fn c n a v t).
Proof. destruct t as [t1 t2]. unfold sp_swap_sub_fn. destruct create_sub_word_mask_values as [[dst shift] mask]. unfs. contract_tac. Qed.
Lemma sp_cas_sub_contract c n a old new t : contract BE (sp_cas_sub_fn c n a old new t).
Proof.
  destruct t as [t1 t2]. unfold sp_cas_sub_fn, sp_move. destruct create_sub_word_mask_values as [[dst shift] mask].
  destruct (sp_v9 c); cbn [app]; unfs; contract_tac.
Qed.

Lemma sp_load_progress n a t x y : progress BE (sp_load_fn n a t) x y 3.
Proof. destruct t as [t1 t2]. unfold sp_load_fn. startt f r. tline. Qed.
Lemma sp_store_progress c n a v t x y : progress BE (sp_store_fn c n a v t) x y 3.
Proof. destruct t as [t1 t2]. unfold sp_store_fn. startt f r. tline. Qed.
Lemma sp_cas_progress c n a old new t x y : progress BE (sp_cas_fn c n a old new t) x y 8.
Proof. destruct t as [t1 t2]. unfold sp_cas_fn, sp_move. destruct (sp_v9 c); cbn [app]; unfs; startt f r; tlinec. Qed.
Lemma pay3 d3 d2 d1 s : (d3 + (d2 + (d1 + s)) - 1 = 0 -> 1 <= s -> d3 = 0 /\ d2 = 0 /\ d1 = 0)%nat. Proof. lia. Qed.
Lemma sk3 d3 d2 d1 s : (1 <= s -> 1 <= d3 + (d2 + (d1 + s)))%nat. Proof. lia. Qed.
Lemma pay2 d2 d1 s : (d2 + (d1 + s) - 1 = 0 -> 1 <= s -> d2 = 0 /\ d1 = 0)%nat. Proof. lia. Qed.
Lemma sk2 d2 d1 s : (1 <= s -> 1 <= d2 + (d1 + s))%nat. Proof. lia. Qed.
Lemma sp_swap_progress c n a v t : 0 < n -> progress BE (sp_swap_fn c n a v t) a n 9.
Proof.
  intros Hn. destruct t as [t1 t2]. unfold sp_swap_fn. unfs.
  tinv_w 2%nat 7%nat (fun f : regs => f Dst = a) (fun f : regs => low (8 * n) (f Out)) Loop.
  { do 4 stt. rewrite Hi. match goal with |- T _ _ _ _ _ _ (_ + _ * ?X)%nat _ _ => set (X0 := X) end.
    stt. rewrite rd_low by (auto; lia). stt.
    destruct (Z.eqb_spec (rd BE (o_mem o2) a n) (low (8 * n) (f Out))) as [E|E]; stk; [tline|].
    assert (1 <= X0)%nat as G1. { destruct X0 eqn:Z0; [|apply le_n_S, Nat.le_0_l]. exfalso. subst X0. tzero. congruence. }
    eapply T_back1; [|apply sk2, G1|apply IH; cbnx]; [repeat constructor|lts|assumption|].
    intros X. destruct (pay2 _ _ _ X G1) as (Z1 & Z2). clear X X0 G1. tzero. rewrite rd_low by (auto; lia). congruence. }
  startt f r. do 2 stt. eapply T_weakx; [|apply Loop; cbnx]; [repeat constructor|tauto|].
  intros _. destruct Hin as [-> _]. rewrite Z.add_0_r. apply rd_low; auto; lia.
Qed.
Lemma sp_swap_sub_progress c n a v t : progress BE (sp_swap_sub_fn c n a v t) (fst (fst (create_sub_word_mask_values (sp_arch c) BE (sp_w c) (sp_w c) n a))) 4 13.
Proof.
  destruct t as [t1 t2]. unfold sp_swap_sub_fn. destruct create_sub_word_mask_values as [[dst shift] mask]. cbn [fst]. unfs.
  tinv_w 4%nat 9%nat (fun f : regs => f Dst = dst) (fun f : regs => low 32 (f Out)) Loop.
  { do 5 stt. rewrite Hi. match goal with |- T _ _ _ _ _ _ (_ + _ * ?X)%nat _ _ => set (X0 := X) end.
    stt. rewrite low32_rd by auto. stt.
    destruct (Z.eqb_spec (rd BE (o_mem o3) dst 4) (low 32 (f Out))) as [E|E]; stk; [tline|].
    assert (1 <= X0)%nat as G1. { destruct X0 eqn:Z0; [|apply le_n_S, Nat.le_0_l]. exfalso. subst X0. tzero. congruence. }
    eapply T_back1; [|apply sk2, G1|apply IH; cbnx]; [repeat constructor|lts|assumption|].
    intros X. destruct (pay2 _ _ _ X G1) as (Z1 & Z2). clear X X0 G1. tzero. rewrite low32_rd by auto. congruence. }
  startt f r. do 4 stt. eapply T_weakx; [|apply Loop; cbnx]; [repeat constructor|tauto|].
  intros _. destruct Hin as [-> _]. rewrite Z.add_0_r. apply low32_rd; auto.
Qed.
Lemma sp_cas_sub_progress c n a old new t : progress BE (sp_cas_sub_fn c n a old new t) (fst (fst (create_sub_word_mask_values (sp_arch c) BE (sp_w c) (sp_w c) n a))) 4 22.
Proof.
  destruct t as [t1 t2]. unfold sp_cas_sub_fn, sp_move. destruct create_sub_word_mask_values as [[dst shift] mask]. cbn [fst].
  destruct (sp_v9 c); cbn [app]; unfs.
  all: tinv_w 5%nat 17%nat (fun f : regs => f Dst = dst) (fun f : regs => low 32 (f Out)) Loop.
  1, 3: do 4 stt; match goal with |- context [b2z ?b =? 0] => destruct b end; stk; [|tline];
    do 4 stt; rewrite Hi; match goal with |- T _ _ _ _ _ _ (_ + _ * ?X)%nat _ _ => set (X0 := X) end;
    stt; rewrite low32_rd by auto; stt;
    match goal with |- context [b2z (?x =? ?y) =? 0] => destruct (Z.eqb_spec x y) as [E|E] end; stk; [tline|];
    assert (1 <= X0)%nat as G1 by (destruct X0 eqn:Z0; [|apply le_n_S, Nat.le_0_l]; exfalso; subst X0; tzero; congruence);
    eapply T_back1; [|apply sk2, G1|apply IH; cbnx]; [repeat constructor|lts|assumption|];
    intros X; destruct (pay2 _ _ _ X G1) as (Z1 & Z2); clear X X0 G1; tzero; rewrite low32_rd by auto; congruence.
  all: startt f r; do 5 stt; eapply T_weakx; [|apply Loop; cbnx]; [repeat constructor|tauto|];
    intros _; destruct Hin as [-> _]; rewrite Z.add_0_r; apply low32_rd; auto.
Qed.
