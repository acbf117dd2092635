(* Executions that meet the hypotheses of C28 with a release sequence through two read-modify-writes, the first by the releasing thread, the second by
   the acquiring thread, on RISC-V, PowerPC, AArch64. *)
From Verif Require Import Interleave CallLink Prop_sc Ex_graph Ex_sc Ex_mp SeqCst Prop_order Examples Ex_lock Serial Prop_hb.
From Verif Require Import Arch_riscv Arch_powerpc Arch_aarch64.

(* ---- deciding who reads from whom ---- *)
Section D.
Context (thr : nat -> list seg) (m0 : mem) (n : nat) (Em : forall t, (n <= t)%nat -> thr t = []).
Notation G := (serial thr m0).
Definition its_at (t : nat) : list item := flat (thr t).
Definition evd (x : eid) : option ev := match nth_error (its_at (fst x)) (snd x) with Some (IE v) => Some v | _ => None end.
Definition accb (wr : bool) (x : eid) (b : Z) : bool := match evd x with Some v => Bool.eqb (e_w v) wr && (e_a v <=? b) && (b <? e_a v + e_n v) | None => false end.
Definition lexb (x y : eid) : bool := Nat.ltb (fst x) (fst y) || (Nat.eqb (fst x) (fst y) && Nat.ltb (snd x) (snd y)).
Definition pts : list eid := flat_map (fun t => map (pair t) (List.seq 0 (length (its_at t)))) (List.seq 0 n).
Definition rfb (b : Z) (w r : eid) : bool := accb true w b && accb false r b && lexb w r && forallb (fun x => negb (accb true x b && lexb x r && lexb w x)) pts.
Definition pairb (r w : eid) : bool := Nat.eqb (fst r) (fst w) && match evd w with Some v => e_w v && e_x v | None => false end && match evd r with Some v => negb (e_w v) | None => false end &&
  Nat.ltb (snd r) (snd w) && forallb (fun k => match evd (fst r, k) with Some v => e_w v | None => true end) (List.seq (S (snd r)) (snd w - S (snd r))).
Lemma evd_ok x v : evd x = Some v <-> ev_at G x v.
Proof. unfold evd, ev_at, at_. change (items G (fst x)) with (its_at (fst x)). destruct (nth_error _ _) as [[u| | |]|]; split; congruence. Qed.
Lemma accb_ok wr x b : accb wr x b = true <-> exists v, ev_at G x v /\ e_w v = wr /\ covers v b.
Proof.
  unfold accb. split.
  - destruct (evd x) as [v|] eqn:E; [|discriminate]. intros H. apply andb_prop in H. destruct H as [H H3]. apply andb_prop in H. destruct H as [H1 H2].
    exists v. split; [now apply evd_ok|]. split; [now apply eqb_prop|]. unfold covers. lia.
  - intros (v & V & <- & C). apply evd_ok in V. rewrite V, eqb_reflx. unfold covers in C. cbn [andb]. lia.
Qed.
Lemma lexb_ok x y : lexb x y = true <-> lexlt x y.
Proof. unfold lexb, lexlt. rewrite orb_true_iff, andb_true_iff, !Nat.ltb_lt, Nat.eqb_eq. tauto. Qed.
Lemma pts_in x v : ev_at G x v -> In x pts.
Proof.
  destruct x as [t k]. intros V. unfold pts. apply in_flat_map. exists t. unfold ev_at in V. cbn [fst snd] in V. change (items G t) with (its_at t) in V. split.
  - apply in_seq. destruct (Nat.lt_ge_cases t n) as [Q|Q]; [lia|]. unfold its_at in V. rewrite (Em t Q) in V. destruct k; discriminate V.
  - apply in_map, in_seq. pose proof (at_lt _ _ _ V). lia.
Qed.
Lemma rfb_ok b w r : rfb b w r = true -> g_rf G b w r.
Proof.
  unfold rfb. intros H. apply andb_prop in H. destruct H as [H H4]. apply andb_prop in H. destruct H as [H H3]. apply andb_prop in H. destruct H as [H1 H2].
  split; [now apply accb_ok|]. split; [now apply accb_ok|]. split; [now apply lexb_ok|]. intros x W L Q. assert (In x pts) as I by (destruct W as (v & V & _); exact (pts_in x v V)).
  rewrite forallb_forall in H4. specialize (H4 x I). apply (accb_ok true x b) in W. apply lexb_ok in L, Q. rewrite W, L, Q in H4. discriminate H4.
Qed.
Lemma pairb_ok r w : pairb r w = true -> rmw_pair G r w.
Proof.
  unfold pairb. intros H. apply andb_prop in H. destruct H as [H H5]. apply andb_prop in H. destruct H as [H H4]. apply andb_prop in H. destruct H as [H H3]. apply andb_prop in H. destruct H as [H1 H2].
  apply Nat.eqb_eq in H1. apply Nat.ltb_lt in H4. destruct (evd w) as [v|] eqn:Ew; [|discriminate H2]. destruct (evd r) as [u|] eqn:Er; [|discriminate H3].
  apply evd_ok in Ew, Er. apply andb_prop in H2. apply negb_true_iff in H3. split; [exact H1|]. exists v. unfold ev_at in *. rewrite <- H1 in Ew. split; [exact Ew|]. split; [tauto|]. split; [tauto|].
  split; [exact H4|]. split; [exists u; auto|]. intros m Hm (z & Z & Wz). rewrite forallb_forall in H5. specialize (H5 m). rewrite in_seq in H5. assert (evd (fst r, m) = Some z) as E by (apply evd_ok; exact Z). rewrite E in H5.
  rewrite H5 in Wz; [discriminate Wz|lia].
Qed.
End D.

(* thread 0: data = 0x2a2a2a2a; A.store(7, Release); A.swap(8, Relaxed) = 7;  thread 1: A.swap(9, Relaxed) = 8; A.load(Acquire) = 9; reads data *)
Definition rs_st := OStore 4 Release 0x2000 7.
Definition rs_sw1 := OSwap 4 Relaxed 0x2000 8.
Definition rs_sw2 := OSwap 4 Relaxed 0x2000 9.
Definition rs_ld := OLoad 4 Acquire 0x2000.
Definition mem_os (e : endian) (v : Z) : list oracle := map (fun '(b, ok, j) => mkor (bytes b) ok j) (repeat ([(match e with LE => 0x2000 | BE => 0x2003 end, v)], true, 0) 30).
Section RS.
Context (T : arch).
Definition rs1 := its_of T rs_st st_os (lk_regs 7).
Definition rs2 := its_of T rs_sw1 (mem_os (t_e T) 7) (lk_regs 8).
Definition rs3 := its_of T rs_sw2 (mem_os (t_e T) 8) (lk_regs 9).
Definition rs4 := its_of T rs_ld (mem_os (t_e T) 9) (lk_regs 0).
Definition rs_thr (t : nat) : list seg := match t with
  | O => [Code [IE (data true)]; Call rs_st RUnit rs1; Call rs_sw1 (RVal 7) rs2]
  | S O => [Call rs_sw2 (RVal 8) rs3; Call rs_ld (RVal 9) rs4; Code [IE (data false)]]
  | _ => [] end.
Definition rsg : graph := serial rs_thr (fun _ => 0).
Definition p_st : eid := (O, 1 + hd O (evs rs1 0))%nat.
Definition p_r1 : eid := (O, 1 + length rs1 + nth 0 (evs rs2 0) O)%nat.
Definition p_w1 : eid := (O, 1 + length rs1 + nth 1 (evs rs2 0) O)%nat.
Definition p_r2 : eid := (1%nat, nth 0 (evs rs3 0) O).
Definition p_w2 : eid := (1%nat, nth 1 (evs rs3 0) O).
Definition p_ld : eid := (1%nat, length rs3 + hd O (evs rs4 0))%nat.
Definition p_d : eid := (O, O).
Definition p_e : eid := (1%nat, length rs3 + length rs4)%nat.
Definition rs_met : Prop := t_ie T = None /\ t_wf T /\ execution T rsg /\
  publish rsg 0 1 rs_st RUnit rs1 1 1 rs_ld (RVal 9) rs4 p_st p_ld p_d p_e /\ writes_b rsg p_d 0x1002 /\ reads_b rsg p_e 0x1002 /\
  (forall b, ~ g_rf rsg b p_st p_ld) /\ syncs rsg (0, 1)%nat (1, 1)%nat.
Lemma op2 its a : ok2 its a = true -> op_read its (nth 0 (evs its 0) O) /\ op_write its (nth 1 (evs its 0) O).
Proof.
  intros K. apply ok2_ok in K. cbv zeta in K. destruct K as (A1 & A2 & Lt & U & W1 & W2 & _).
  assert (op_write its (nth 1 (evs its 0) O)) as Ow.
  { split; [exact (at_lt _ _ _ A2)|]. split; [eexists; split; eassumption|]. intros m Hm (v & V & _). destruct (U m v V); lia. }
  split; [|exact Ow]. left. eexists. split; [exact Ow|]. split; [exact Lt|]. split; [eexists; split; eassumption|]. intros m Hm (v & V & _). destruct (U m v V); lia.
Qed.
Lemma op1r its a : ok1 its false a = true -> op_read its (hd O (evs its 0)).
Proof.
  intros K. apply ok1_ok in K. cbv zeta in K. destruct K as ([O1 O2] & W & _). right. split; [intros k (v & V & Wv); rewrite (O2 k v V) in V; unfold at_ in *; congruence|].
  split; [exact (at_lt _ _ _ O1)|]. split; [eexists; split; eassumption|]. intros m Hm (v & V & _). pose proof (O2 m v V). lia.
Qed.
Lemma rs_by : t_wf T -> t_ie T = None -> call_items T rs_st rs1 RUnit -> call_items T rs_sw1 rs2 (RVal 7) -> call_items T rs_sw2 rs3 (RVal 8) -> call_items T rs_ld rs4 (RVal 9) ->
  ok1 rs1 true 0x2000 = true -> ok2 rs2 0x2000 = true -> ok2 rs3 0x2000 = true -> ok1 rs4 false 0x2000 = true ->
  match run_threads rs_thr (fun _ => 0) 2 0 (fun _ => 0) with Some _ => true | None => false end = true ->
  rfb rs_thr 2 0x2000 p_st p_r1 && rfb rs_thr 2 0x2000 p_w1 p_r2 && rfb rs_thr 2 0x2000 p_w2 p_ld = true -> pairb rs_thr p_r1 p_w1 && pairb rs_thr p_r2 p_w2 = true ->
  accb rs_thr true p_w1 0x2000 && accb rs_thr true p_w2 0x2000 = true -> accb rs_thr true p_d 0x1002 && accb rs_thr false p_e 0x1002 = true ->
  match evd rs_thr p_ld with Some v => (e_a v =? 0x2000) && (e_n v =? 4) | None => false end = true -> forallb (fun b => accb rs_thr true p_w1 b && lexb p_w1 p_ld && lexb p_st p_w1) [0x2000; 0x2001; 0x2002; 0x2003] = true -> rs_met.
Proof.
  intros W Ie C1 C2 C3 C4 K1 K2 K3 K4 Run Rf Pr Ac Da Pl Ov.
  assert (forall t, (2 <= t)%nat -> rs_thr t = []) as Em by (clear; intros [|[|t]] Q; [lia|lia|reflexivity]).
  assert (execution T rsg) as X.
  { apply interleaving_execution with lexlt. apply (serial_interleaving T rs_thr (fun _ => 0) 2); [|exact Em|destruct (run_threads _ _ _ _ _); congruence].
    intros t q c r its H. unfold call_at in H. destruct t as [|[|t]], q as [|[|[|q]]]; cbn in H; try discriminate H; try (destruct q; discriminate H); injection H as <- <- <-; assumption. }
  apply andb_prop in Rf. destruct Rf as [Rf F3]. apply andb_prop in Rf. destruct Rf as [F1 F2]. apply (rfb_ok rs_thr (fun _ => 0) 2 Em) in F1, F2, F3.
  apply andb_prop in Pr. destruct Pr as [P1 P2]. apply (pairb_ok rs_thr (fun _ => 0)) in P1, P2. apply andb_prop in Ac. destruct Ac as [A1 A2]. apply (accb_ok rs_thr (fun _ => 0)) in A1, A2.
  apply andb_prop in Da. destruct Da as [D1 D2]. apply (accb_ok rs_thr (fun _ => 0)) in D1, D2.
  destruct (op2 _ _ K2) as [R2 W2], (op2 _ _ K3) as [R3 W3]. pose proof (op1r _ _ K4) as R4.
  assert (base rsg 0 1 = 1 /\ base rsg 0 2 = 1 + length rs1 /\ base rsg 1 0 = 0 /\ base rsg 1 1 = length rs3 /\ base rsg 1 2 = length rs3 + length rs4)%nat as (B1 & B2 & B3 & B4 & B5).
  { clear. unfold base, flat. cbn -[rs1 rs2 rs3 rs4]. rewrite ?app_length. cbn [length]. lia. }
  assert (lib_rmw rsg p_r1 p_w1) as L1.
  { exists O, 2%nat, rs_sw1, (RVal 7), rs2. split; [reflexivity|]. split; [reflexivity|]. split; (split; [reflexivity|]); eexists; rewrite B2; (split; [reflexivity|assumption]). }
  assert (lib_rmw rsg p_r2 p_w2) as L2.
  { exists 1%nat, O, rs_sw2, (RVal 8), rs3. split; [reflexivity|]. split; [reflexivity|]. split; (split; [reflexivity|]); eexists; rewrite B3; (split; [reflexivity|assumption]). }
  assert (synchronizes rsg p_st p_ld) as Sy.
  { left. exists 0x2000, p_w2. split; [|exact F3]. apply rs_rmw with 0x2000 p_r1 p_w1; auto. apply rs_rmw with 0x2000 p_r2 p_w2; auto. constructor. }
  assert (a_write rsg p_st 0 1 rs1) as Hw. { apply ok1_ok in K1. cbv zeta in K1. destruct K1 as ([Q _] & Q2 & _). split; [reflexivity|]. eexists. rewrite B1. split; [reflexivity|]. eexists. split; eassumption. }
  assert (the_read rsg p_ld 1 1 rs4) as Hr by (split; [reflexivity|]; eexists; rewrite B4; split; [reflexivity|assumption]).
  split; [exact Ie|]. split; [exact W|]. split; [exact X|]. split; [|split; [exact D1|split; [exact D2|split]]].
  - split; [reflexivity|]. split; [reflexivity|]. split; [exact Hw|]. split; [split; [reflexivity|]; rewrite B1; apply Nat.lt_0_1|]. split; [reflexivity|]. split; [reflexivity|]. split; [reflexivity|].
    split; [exact Hr|]. split; [split; [reflexivity|]; rewrite B5; apply Nat.le_refl|]. split; [exact Sy|].
    destruct D1 as (v & V & Wv & _), D2 as (u & U & Wu & Cu). split; [exists v; auto|]. exists u. split; [exact U|]. right. left.
    assert (u = data false) as ->; [|reflexivity]. unfold ev_at, at_, items, flat in U. clear - U. cbn -[rs3 rs4] in U. rewrite nth_error_app2 in U by lia. rewrite Nat.add_comm, Nat.add_sub in U. rewrite nth_error_app2 in U by lia. rewrite Nat.sub_diag in U. injection U as <-. reflexivity.
  - intros b (_ & (v & V & _ & Cv) & _ & Q). apply (evd_ok rs_thr (fun _ => 0)) in V. rewrite V in Pl. apply andb_prop in Pl. destruct Pl as [Pa Pn]. apply Z.eqb_eq in Pa, Pn. unfold covers in Cv.
    assert (In b [0x2000; 0x2001; 0x2002; 0x2003]) as I by (clear - Cv Pa Pn; cbn; lia). rewrite forallb_forall in Ov. specialize (Ov b I). apply andb_prop in Ov. destruct Ov as [Ov O3]. apply andb_prop in Ov. destruct Ov as [O1 O2].
    apply (accb_ok rs_thr (fun _ => 0)) in O1. apply lexb_ok in O2, O3. exact (Q p_w1 O1 O2 O3).
  - exists rs_st, RUnit, rs1, rs_ld, (RVal 9), rs4, p_st, p_ld. repeat (split; [first [reflexivity|assumption]|]). exact Sy.
Qed.
End RS.
Ltac rs_meet := apply rs_by; [|reflexivity|item|item|item|item|vm_compute; reflexivity|vm_compute; reflexivity|vm_compute; reflexivity|vm_compute; reflexivity|vm_compute; reflexivity|vm_compute; reflexivity
  |vm_compute; reflexivity|vm_compute; reflexivity|vm_compute; reflexivity|vm_compute; reflexivity|vm_compute; reflexivity].
Example rseq_riscv : rs_met (Riscv rv64).
Proof. rs_meet. right; split; [reflexivity|left; reflexivity]. Qed.
Example rseq_powerpc : rs_met (Powerpc pp64).
Proof. rs_meet. right. reflexivity. Qed.
Example rseq_aarch64 : rs_met (Aarch64 aa0).
Proof. rs_meet. exact Logic.I. Qed.
