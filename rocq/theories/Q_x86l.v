(* operand contracts and progress of the legacy x86 blocks *)
From Verif Require Import Prog Arch_x86l Fields UtilsProofs P_x86 Q_x86 P_x86l.

Lemma xl_load_contract c b n a : contract LE (xl_load_fn c b n a).
Proof. unfold xl_load_fn. unfa. contract_tac. Qed.
Lemma xl_store_contract c b n a v t : contract LE (xl_store_fn c b n a v t).
Proof. unfold xl_store_fn. destruct t; unfa; contract_tac. Qed.
Lemma xl_swap_contract c b n a v : contract LE (xl_swap_fn c b n a v).
Proof. unfold xl_swap_fn. unfa. contract_tac. Qed.
Lemma xl_cas_contract c b n a old new : contract LE (xl_cas_fn c b n a old new).
Proof. unfold xl_cas_fn. unfa. contract_tac. Qed.
(* [sv] = the reserved register (esi on x86, rbx on x86_64): saved in a temporary and restored on every path *)
Definition sv_inv (sv : reg) (len : nat) (b : Z) (k : nat) (g : regs) : Prop :=
  if (k =? 0)%nat || (len <=? k)%nat then g sv = b else g Tmp = b.
Ltac sv_tac sv len :=
  apply (contract_save _ _ sv (sv_inv sv len)); unfold sv_inv; cbn [f_clob f_prog];
  [ let r := fresh "r" in let Hr := fresh "Hr" in let Hn := fresh "Hn" in let i := fresh "i" in let Hi := fresh in
    intros r Hr Hn i Hi; cbn [In] in Hi; repeat (destruct Hi as [<- | Hi]; [keep1n r Hr Hn|]); contradiction
  | intros; reflexivity
  | cbn [length]; intros ? ? H; exact H
  | intros b0 i o [k g rs0] s' m' Hi HI X; cbn [pc rf] in *;
    repeat (destruct k as [|k]; [cbn [nth_error] in Hi; injection Hi as <-; cbn [exec mov xor_ map pc rf rs] in X;
      repeat match type of X with
      | (if ?b then _ else _) = _ => destruct b
      | match ?x with Some _ => _ | None => _ end = _ => destruct x eqn:?; [|discriminate X] end;
      try (match goal with H : target _ _ _ = Some _ |- _ => cbn in H; injection H as <- end);
      inversion X; subst; cbn [pc rf] in *; cbn [Nat.eqb Nat.leb orb] in *; cbn [upds];
      repeat match goal with |- context [upds _ (if ?b then _ else _)] => destruct b; cbn [upds] end;
      cbn [upd reg_beq op1 op2]; solve [assumption | reflexivity] |]); destruct k; cbn in Hi; discriminate ].
Lemma xl_load64_contract c b a : contract LE (xl_load64_fn c b a).
Proof. unfold xl_load64_fn. destruct (xl_wide c); unfa; [contract_tac|contract_tac|sv_tac XS 6%nat|sv_tac XS 6%nat]. Qed.
Lemma xl_store64_contract c b a v t : contract LE (xl_store64_fn c b a v t).
Proof. unfold xl_store64_fn. destruct (xl_wide c); unfa; contract_tac. Qed.
Lemma xl_swap64_contract c b a v : contract LE (xl_swap64_fn c b a v).
Proof. unfold xl_swap64_fn. unfa. sv_tac XS 12%nat. Qed.
Lemma xl_cas64_contract c b a old new : contract LE (xl_cas64_fn c b a old new).
Proof. unfold xl_cas64_fn. unfa. sv_tac XS 11%nat. Qed.
Lemma xl_load128_contract c b a : contract LE (xl_load128_fn c b a).
Proof. unfold xl_load128_fn. unfa. sv_tac XB 7%nat. Qed.
Lemma xl_store128_contract c b a v : contract LE (xl_store128_fn c b a v).
Proof. unfold xl_store128_fn. unfa. sv_tac XB 10%nat. Qed.
Lemma xl_swap128_contract c b a v : contract LE (xl_swap128_fn c b a v).
Proof. unfold xl_swap128_fn. unfa. sv_tac XB 12%nat. Qed.
Lemma xl_cas128_contract c b a old new : contract LE (xl_cas128_fn c b a old new).
Proof. unfold xl_cas128_fn. unfa. sv_tac XB 12%nat. Qed.

Lemma xl_load_progress c b n a x y : progress LE (xl_load_fn c b n a) x y 3.
Proof. unfold xl_load_fn. unfa. startt f r. tline. Qed.
Lemma xl_store_progress c b n a v t x y : progress LE (xl_store_fn c b n a v t) x y 3.
Proof. unfold xl_store_fn. destruct t; unfa; startt f r; tline. Qed.
Lemma xl_swap_progress c b n a v x y : progress LE (xl_swap_fn c b n a v) x y 4.
Proof. unfold xl_swap_fn. unfa. startt f r. tline. Qed.
Lemma xl_cas_progress c b n a old new x y : progress LE (xl_cas_fn c b n a old new) x y 6.
Proof. unfold xl_cas_fn. unfa. startt f r. do 6 stt. tend. Qed.
Lemma xl_cas64_progress c b a old new x y : progress LE (xl_cas64_fn c b a old new) x y 11.
Proof. unfold xl_cas64_fn. unfa. startt f r. do 11 stt. tend. Qed.
Lemma xl_load128_progress c b a x y : progress LE (xl_load128_fn c b a) x y 7.
Proof. unfold xl_load128_fn. unfa. startt f r. do 7 stt. tend. Qed.
Lemma xl_cas128_progress c b a old new x y : progress LE (xl_cas128_fn c b a old new) x y 12.
Proof. unfold xl_cas128_fn. unfa. startt f r. do 12 stt. tend. Qed.
Lemma xl_load64_progress c b a x y : progress LE (xl_load64_fn c b a) x y 6.
Proof. unfold xl_load64_fn. destruct (xl_wide c); unfa; startt f r; do 5 stt; try tend; stt; tend. Qed.

Ltac wide_body :=
  stt; stt; match goal with Hi : _ AR7 = _ |- _ => rewrite Hi end; let E := fresh "E" in tcase E;
  [ stt; cbn [Z.eqb Pos.eqb]; repeat stt; tend
  | stt; cbn [Z.eqb Pos.eqb]; 
    match goal with |- T _ _ _ _ _ _ (_ + _ * (?d1 + ?X))%nat _ _ => assert (1 <= X)%nat as G1 end;
    [ match goal with |- (1 <= ?X)%nat => destruct X eqn:Z0 end; [|lia]; exfalso; tzero; congruence
    | match goal with IH : forall m : nat, _, E1 : _ = S ?x, E2 : ?x = S ?y |- _ => 
        eapply T_back1; [|lia|apply IH; cbnx]; [lia|lts|auto|] end;
      let X := fresh "X" in intros X;
      match goal with d : nat |- _ => match type of X with (d + _ - 1 = 0)%nat => assert (d = 0%nat) by lia end end;
      tzero; rewrite low_low by lia; rewrite join_low_shiftr by lia; congruence ] ].
Ltac sttg := stt; match goal with |- T _ _ _ _ _ _ _ _ (mkst _ (upd _ _ ?v) _) => generalize v; let y := fresh "y" in intros y end.
Lemma xl_store64_progress c b a v t : 0 <= a < 2 ^ x_pw c -> progress LE (xl_store64_fn c b a v t) a 8 11.
Proof.
  intros Ha. unfold xl_store64_fn. destruct (xl_wide c); unfa; [startt f r; tline|startt f r; tline| |].
  all: tinv_w 5%nat 3%nat (fun f : regs => f AR7 = a) (fun f : regs => low 32 (f XA) + f XD * 2 ^ 32) Loop; [wide_body|].
  all: startt f r; destruct Hin as [Fd _]; do 2 sttg; do 5 stt; rewrite Fd, (low_id _ a) by auto; tcase EE; [stt; cbn [Z.eqb]; tend|].
  all: stt; cbn [Z.eqb]; eapply T_le; [|apply (Loop _ _ _ _ d6); cbnx; auto; rewrite ?Fd, ?(low_id _ a) by auto; auto]; [lia|].
  all: intros X; tzero; rewrite low_low by lia; rewrite join_low_shiftr by lia; congruence.
Qed.
Lemma xl_swap64_progress c b a v : 0 <= a < 2 ^ x_pw c -> progress LE (xl_swap64_fn c b a v) a 8 15.
Proof.
  intros Ha. unfold xl_swap64_fn. unfa.
  tinv_w 6%nat 6%nat (fun f : regs => f AR7 = a) (fun f : regs => low 32 (f XA) + f XD * 2 ^ 32) Loop.
  { wide_body. }
  startt f r. destruct Hin as [Fd _]. stt. do 2 sttg. do 5 stt. rewrite Fd, (low_id _ a) by auto. tcase EE; [stt; cbn [Z.eqb]; repeat stt; tend|].
  stt. cbn [Z.eqb]. eapply T_le; [|apply (Loop _ _ _ _ d7); cbnx; auto; rewrite ?Fd, ?(low_id _ a) by auto; auto]; [lia|].
  intros X. tzero. rewrite low_low by lia. rewrite join_low_shiftr by lia. congruence.
Qed.
Lemma xl_store128_progress c b a v : progress LE (xl_store128_fn c b a v) a 16 13.
Proof.
  unfold xl_store128_fn. unfa.
  tinv_w 6%nat 4%nat (fun f : regs => f AR7 = a) (fun f : regs => low 64 (f XA) + f XD * 2 ^ 64) Loop.
  { wide_body. }
  startt f r. destruct Hin as [[_ Fd] _]. stt. do 2 sttg. do 5 stt. rewrite Fd. tcase EE; [stt; cbn [Z.eqb]; repeat stt; tend|].
  stt. cbn [Z.eqb]. eapply T_le; [|apply (Loop _ _ _ _ d7); cbnx; auto]; [lia|].
  intros X. tzero. rewrite low_low by lia. rewrite join_low_shiftr by lia. congruence.
Qed.
Lemma xl_swap128_progress c b a v : progress LE (xl_swap128_fn c b a v) a 16 15.
Proof.
  unfold xl_swap128_fn. unfa.
  tinv_w 6%nat 6%nat (fun f : regs => f AR7 = a) (fun f : regs => low 64 (f XA) + f XD * 2 ^ 64) Loop.
  { wide_body. }
  startt f r. destruct Hin as [[_ Fd] _]. stt. do 2 sttg. do 5 stt. rewrite Fd. tcase EE; [stt; cbn [Z.eqb]; repeat stt; tend|].
  stt. cbn [Z.eqb]. eapply T_le; [|apply (Loop _ _ _ _ d7); cbnx; auto]; [lia|].
  intros X. tzero. rewrite low_low by lia. rewrite join_low_shiftr by lia. congruence.
Qed.
