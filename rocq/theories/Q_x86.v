(* operand contracts and progress of the x86 blocks *)
From Verif Require Import Prog Arch_x86 Fields UtilsProofs P_x86.

Lemma x_load_contract c n a : contract LE (x_load_fn c n a).
Proof. unfold x_load_fn. unfa. contract_tac. Qed.
Lemma x_store_contract c n a v t : contract LE (x_store_fn c n a v t).
Proof. unfold x_store_fn. destruct t; unfa; contract_tac. Qed.
Lemma x_swap_contract c n a v : contract LE (x_swap_fn c n a v).
Proof. unfold x_swap_fn. unfa. contract_tac. Qed.
Lemma x_cas_contract c n a old new : contract LE (x_cas_fn c n a old new).
Proof. unfold x_cas_fn. unfa. contract_tac. Qed.
Lemma x_load64_contract c a : contract LE (x_load64_fn c a).
Proof. unfold x_load64_fn. destruct (x_load_wide c); unfa; contract_tac. Qed.
Lemma x_store64_contract c a v t : contract LE (x_store64_fn c a v t).
Proof. unfold x_store64_fn. destruct (x_store_wide c); unfa; contract_tac. Qed.
Lemma x_swap64_contract c a v : contract LE (x_swap64_fn c a v).
Proof. unfold x_swap64_fn. unfa. contract_tac. Qed.
Lemma x_cas64_contract c a old new : contract LE (x_cas64_fn c a old new).
Proof. unfold x_cas64_fn. unfa. contract_tac. Qed.

(* rbx is saved in rbx_tmp and restored on every path *)
Definition rbx_inv (len : nat) (b : Z) (k : nat) (g : regs) : Prop :=
  if (k =? 0)%nat || (len <=? k)%nat then g XB = b else g Tmp = b.
Ltac save_tac len :=
  apply (contract_save _ _ XB (rbx_inv len)); unfold rbx_inv; cbn [f_clob f_prog];
  [ let r := fresh "r" in let Hr := fresh "Hr" in let Hn := fresh "Hn" in let i := fresh "i" in let Hi := fresh in
    intros r Hr Hn i Hi; cbn [In] in Hi; repeat (destruct Hi as [<- | Hi]; [keep1n r Hr Hn|]); contradiction
  | intros; reflexivity
  | cbn [length]; intros ? ? H; exact H
  | intros b i o [k g rs0] s' m' Hi HI X; cbn [pc rf] in *;
    repeat (destruct k as [|k]; [cbn [nth_error] in Hi; injection Hi as <-; cbn [exec mov xor_ map pc rf rs] in X;
      repeat match type of X with
      | (if ?b then _ else _) = _ => destruct b
      | match ?x with Some _ => _ | None => _ end = _ => destruct x eqn:?; [|discriminate X] end;
      try (match goal with H : target _ _ _ = Some _ |- _ => cbn in H; injection H as <- end);
      inversion X; subst; cbn [pc rf] in *; cbn [Nat.eqb Nat.leb orb] in *; cbn [upds];
      repeat match goal with |- context [upds _ (if ?b then _ else _)] => destruct b; cbn [upds] end;
      cbn [upd reg_beq op1 op2]; solve [assumption | reflexivity] |]); destruct k; cbn in Hi; discriminate ].
Lemma x_load128_contract c a : contract LE (x_load128_fn c a).
Proof. unfold x_load128_fn. unfa. save_tac 5%nat. Qed.
Lemma x_store128_contract c a v : contract LE (x_store128_fn c a v).
Proof. unfold x_store128_fn, x_wide128. unfa. save_tac 8%nat. Qed.
Lemma x_swap128_contract c a v : contract LE (x_swap128_fn c a v).
Proof. unfold x_swap128_fn, x_wide128. unfa. save_tac 8%nat. Qed.
Lemma x_cas128_contract c a old new : contract LE (x_cas128_fn c a old new).
Proof. unfold x_cas128_fn. unfa. save_tac 5%nat. Qed.

Lemma x_load_progress c n a x y : progress LE (x_load_fn c n a) x y 2.
Proof. unfold x_load_fn. unfa. startt f r. tline. Qed.
Lemma x_store_progress c n a v t x y : progress LE (x_store_fn c n a v t) x y 2.
Proof. unfold x_store_fn. destruct t; unfa; startt f r; tline. Qed.
Lemma x_swap_progress c n a v x y : progress LE (x_swap_fn c n a v) x y 2.
Proof. unfold x_swap_fn. unfa. startt f r. tline. Qed.
Lemma x_cas_progress c n a old new x y : progress LE (x_cas_fn c n a old new) x y 3.
Proof. unfold x_cas_fn. unfa. startt f r. do 3 stt. tend. Qed.
Lemma x_cas64_progress c a old new x y : progress LE (x_cas64_fn c a old new) x y 3.
Proof. unfold x_cas64_fn. unfa. startt f r. do 3 stt. tend. Qed.
Lemma x_load128_progress c a x y : progress LE (x_load128_fn c a) x y 5.
Proof. unfold x_load128_fn. unfa. startt f r. do 5 stt. tend. Qed.
Lemma x_cas128_progress c a old new x y : progress LE (x_cas128_fn c a old new) x y 5.
Proof. unfold x_cas128_fn. unfa. startt f r. do 5 stt. tend. Qed.
Lemma x_load64_progress c a x y : progress LE (x_load64_fn c a) x y 4.
Proof.
  unfold x_load64_fn. destruct (x_load_wide c); unfa; startt f r; do 2 stt; try tend; do 2 stt; tend.
Qed.

Ltac wide_body :=
  stt; stt; match goal with Hi : _ AR7 = _ |- _ => rewrite Hi end; let E := fresh "E" in tcase E;
  [ stt; cbn [Z.eqb Pos.eqb]; try stt; tend
  | stt; cbn [Z.eqb Pos.eqb]; 
    match goal with |- T _ _ _ _ _ _ (_ + _ * (?d1 + ?X))%nat _ _ => assert (1 <= X)%nat as G1 end;
    [ match goal with |- (1 <= ?X)%nat => destruct X eqn:Z0 end; [|lia]; exfalso; tzero; congruence
    | match goal with IH : forall m : nat, _, E1 : _ = S ?x, E2 : ?x = S ?y |- _ => 
        eapply T_back1; [|lia|apply IH; cbnx]; [lia|lts|auto|] end;
      let X := fresh "X" in intros X;
      match goal with d : nat |- _ => match type of X with (d + _ - 1 = 0)%nat => assert (d = 0%nat) by lia end end;
      tzero; rewrite low_low by lia; rewrite join_low_shiftr by lia; congruence ] ].
Lemma x_store64_progress c a v t : 0 <= a < 2 ^ x_pw c -> progress LE (x_store64_fn c a v t) a 8 9.
Proof.
  intros Ha. unfold x_store64_fn. destruct (x_store_wide c); unfa; [startt f r; tline|startt f r; tline|startt f r; tline|].
  tinv_w 3%nat 3%nat (fun f : regs => f AR7 = a) (fun f : regs => low 32 (f XA) + f XD * 2 ^ 32) Loop.
  { wide_body. }
  startt f r. destruct Hin as [Fd _]. do 5 stt. rewrite Fd, (low_id _ a) by auto. tcase EE; [stt; cbn [Z.eqb]; tend|].
  stt. cbn [Z.eqb]. eapply T_le; [|apply (Loop _ _ _ _ d4); cbnx; auto; rewrite ?Fd, ?(low_id _ a) by auto; auto]; [lia|].
  intros X. tzero. rewrite low_low by lia. rewrite join_low_shiftr by lia. congruence.
Qed.
Lemma x_swap64_progress c a v : 0 <= a < 2 ^ x_pw c -> progress LE (x_swap64_fn c a v) a 8 9.
Proof.
  intros Ha. unfold x_swap64_fn. unfa.
  tinv_w 3%nat 3%nat (fun f : regs => f AR7 = a) (fun f : regs => low 32 (f XA) + f XD * 2 ^ 32) Loop.
  { wide_body. }
  startt f r. destruct Hin as [Fd _]. do 5 stt. rewrite Fd, (low_id _ a) by auto. tcase EE; [stt; cbn [Z.eqb]; tend|].
  stt. cbn [Z.eqb]. eapply T_le; [|apply (Loop _ _ _ _ d4); cbnx; auto; rewrite ?Fd, ?(low_id _ a) by auto; auto]; [lia|].
  intros X. tzero. rewrite low_low by lia. rewrite join_low_shiftr by lia. congruence.
Qed.
Lemma x_store128_progress c a v : progress LE (x_store128_fn c a v) a 16 11.
Proof.
  unfold x_store128_fn, x_wide128. unfa.
  tinv_w 4%nat 4%nat (fun f : regs => f AR7 = a) (fun f : regs => low 64 (f XA) + f XD * 2 ^ 64) Loop.
  { wide_body. }
  startt f r. destruct Hin as [[_ Fd] _]. do 6 stt. rewrite Fd. tcase EE; [stt; cbn [Z.eqb]; stt; tend|].
  stt. cbn [Z.eqb]. eapply T_le; [|apply (Loop _ _ _ _ d5); cbnx; auto]; [lia|].
  intros X. tzero. rewrite low_low by lia. rewrite join_low_shiftr by lia. congruence.
Qed.
Lemma x_swap128_progress c a v : progress LE (x_swap128_fn c a v) a 16 11.
Proof.
  unfold x_swap128_fn, x_wide128. unfa.
  tinv_w 4%nat 4%nat (fun f : regs => f AR7 = a) (fun f : regs => low 64 (f XA) + f XD * 2 ^ 64) Loop.
  { wide_body. }
  startt f r. destruct Hin as [[_ Fd] _]. do 6 stt. rewrite Fd. tcase EE; [stt; cbn [Z.eqb]; stt; tend|].
  stt. cbn [Z.eqb]. eapply T_le; [|apply (Loop _ _ _ _ d5); cbnx; auto]; [lia|].
  intros X. tzero. rewrite low_low by lia. rewrite join_low_shiftr by lia. congruence.
Qed.
