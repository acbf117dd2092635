(* C44: executions that meet the hypotheses, and one of them that as a whole has not the results of an interleaving. *)
From Verif Require Import Ex_lock Ex_rseq Ex_graph Ex_sc Prop_sc Examples Order Serial Interleave Prop_cell Prop_foot Graph CellSeq Prop_hb.
From Verif Require Import Arch_riscv Arch_powerpc Arch_aarch64.

(* ---- store buffering with Relaxed on RISC-V: A.store(7), B.load() = 0 in one thread, B.store(7), A.load() = 0 in the other ---- *)
Local Notation T := (Riscv rv64).
Definition xst_A := OStore 4 Relaxed 0x2000 7.
Definition xld_B := OLoad 4 Relaxed 0x3000.
Definition xst_B := OStore 4 Relaxed 0x3000 7.
Definition xld_A := OLoad 4 Relaxed 0x2000.
Definition x1 := its_of T xst_A st_os (rgs 0x2000).
Definition x2 := its_of T xld_B st_os (rgs 0x3000).
Definition x3 := its_of T xst_B st_os (rgs 0x3000).
Definition x4 := its_of T xld_A st_os (rgs 0x2000).
Definition wsb : graph := mkgraph
  (fun t => match t with O => [Call xst_A RUnit x1; Call xld_B (RVal 0) x2] | S O => [Call xst_B RUnit x3; Call xld_A (RVal 0) x4] | _ => [] end)
  (fun _ => 0) (fun _ _ _ => False) (fun _ _ _ => False).
Lemma x_calls t q c r its : call_at wsb t q c r its -> (t = 0 /\ q = 0 /\ c = xst_A /\ r = RUnit /\ its = x1)%nat \/ (t = 0 /\ q = 1 /\ c = xld_B /\ r = RVal 0 /\ its = x2)%nat
  \/ (t = 1 /\ q = 0 /\ c = xst_B /\ r = RUnit /\ its = x3)%nat \/ (t = 1 /\ q = 1 /\ c = xld_A /\ r = RVal 0 /\ its = x4)%nat.
Proof. intros H. unfold call_at in H. destruct t as [|[|t]], q as [|[|q]]; cbn in H; try discriminate H; try (destruct q; discriminate H); injection H as <- <- <-; auto 10. Qed.
(* positions 1 and 4 of both threads: a write of A / B, a read of B / A *)
Definition lst (t : nat) : list item := match t with O => x1 ++ x2 | _ => x3 ++ x4 end.
Lemma x_items t : items wsb t = if Nat.ltb t 2 then lst t else [].
Proof. destruct t as [|[|t]]; unfold items, flat; cbn -[x1 x2 x3 x4]; rewrite ?app_nil_r; reflexivity. Qed.
Definition chk (L : list item) (i : nat) (w : bool) (a : Z) : bool := match nth_error L i with
  | Some (IE v) => Bool.eqb (e_w v) w && (e_a v =? a) && (e_n v =? 4) && negb (a_aq (e_o v)) && negb (a_rl (e_o v)) && (w || forallb (fun k => e_b v (a + k) =? 0) [0; 1; 2; 3])
  | _ => false end.
Lemma chk_ok L i w a v : chk L i w a = true -> at_ L i v -> e_w v = w /\ e_a v = a /\ e_n v = 4 /\ a_aq (e_o v) = false /\ a_rl (e_o v) = false /\ (w = false -> forall b, covers v b -> e_b v b = 0).
Proof.
  unfold chk, at_. intros H A. rewrite A in H. repeat (apply andb_true_iff in H; destruct H as [H ?]). repeat match goal with H : negb _ = true |- _ => apply negb_true_iff in H end.
  apply eqb_prop in H. repeat match goal with H : (_ =? _) = true |- _ => apply Z.eqb_eq in H end. repeat (split; [assumption|]). intros -> b C. cbn [orb] in *.
  match goal with F : forallb _ _ = true |- _ => rewrite forallb_forall in F; specialize (F (b - a)) end. unfold covers in C. rewrite Z.add_sub_assoc, Z.add_simpl_l in *.
  match goal with F : In _ _ -> _ |- _ => apply Z.eqb_eq, F end. cbn. lia.
Qed.
Lemma x_chk : chk (x1 ++ x2) 1 true 0x2000 && chk (x1 ++ x2) 4 false 0x3000 && chk (x3 ++ x4) 1 true 0x3000 && chk (x3 ++ x4) 4 false 0x2000 = true.
Proof. vm_compute. reflexivity. Qed.
Lemma x_evs : evs (x1 ++ x2) 0 = [1; 4]%nat /\ evs (x3 ++ x4) 0 = [1; 4]%nat.
Proof. split; vm_compute; reflexivity. Qed.
Lemma x_ev x v : ev_at wsb x v -> (fst x < 2)%nat /\ e_n v = 4 /\ a_aq (e_o v) = false /\ a_rl (e_o v) = false /\ ((snd x = 1%nat /\ e_w v = true /\ e_a v = match fst x with O => 0x2000 | _ => 0x3000 end) \/
  (snd x = 4%nat /\ e_w v = false /\ e_a v = match fst x with O => 0x3000 | _ => 0x2000 end /\ forall b, covers v b -> e_b v b = 0)).
Proof.
  destruct x as [t k]. unfold ev_at. cbn [fst snd]. rewrite x_items. intros A. pose proof x_chk as K. destruct x_evs as [E0 E1].
  apply andb_true_iff in K. destruct K as [K K4]. apply andb_true_iff in K. destruct K as [K K3]. apply andb_true_iff in K. destruct K as [K1 K2].
  destruct t as [|[|t]]; [| |destruct k; discriminate A]; cbn [Nat.ltb Nat.leb lst] in A; (split; [lia|]); pose proof (evs_in _ 0 _ _ A) as I; cbn [Nat.add] in I; rewrite ?E0, ?E1 in I; destruct I as [<-|[<-|[]]].
  - destruct (chk_ok _ _ _ _ _ K1 A) as (Q1 & Q2 & Q3 & Q4 & Q5 & _). auto 10.
  - destruct (chk_ok _ _ _ _ _ K2 A) as (Q1 & Q2 & Q3 & Q4 & Q5 & Q6). auto 12.
  - destruct (chk_ok _ _ _ _ _ K3 A) as (Q1 & Q2 & Q3 & Q4 & Q5 & _). auto 10.
  - destruct (chk_ok _ _ _ _ _ K4 A) as (Q1 & Q2 & Q3 & Q4 & Q5 & Q6). auto 12.
Qed.
Definition quiet (L : list item) : bool := forallb (fun i => match i with IF f => negb (m_ford (arch_mm T) f true false) | IFull => false | ICtl b => negb b | _ => true end) L.
Lemma x_quiet t : quiet (lst t) = true.
Proof. destruct t; vm_compute; reflexivity. Qed.
Lemma x_tlo x y : ~ tlo T wsb x y.
Proof.
  intros [F [H|H]].
  2:{ assert (forall x y, ~ clos_trans _ (coi wsb) x y) as Nc by (intros a b Q; induction Q as [a b (_ & k & [])|]; assumption).
      inversion H as [w u v _ _ _ _ _ Q|w _ Q|b r v _ [] _ _]; exact (Nc _ _ Q). }
  assert (exists v w, ev_at wsb x v /\ ev_at wsb y w /\ (snd x < snd y)%nat) as (v & w & A & B & Lt).
  { unfold ev_at. rewrite <- F. destruct H as [v w L A B|v w L A B|v w L A B|v w L A B|(v & w & k & A & B & L & _)|((w & B) & k & m & f & L & (_ & (L2 & (v & A & _) & _)) & _)|(w & B & _ & _ & (L & (v & A & _) & _))];
      try (exists v, w; split; [exact A|]; split; [exact B|]; lia). }
  destruct (x_ev _ _ A) as (L1 & _ & Q1 & Q2 & [(E1 & W1 & _)|(E1 & _)]), (x_ev _ _ B) as (_ & _ & Q3 & Q4 & [(E2 & _)|(E2 & W2 & _)]); try lia.
  unfold ev_at in A, B. rewrite <- F in B. pose proof (x_quiet (fst x)) as Qt. unfold quiet in Qt. rewrite forallb_forall in Qt. rewrite x_items in H, A, B. apply Nat.ltb_lt in L1. rewrite L1 in *.
  inversion H as [v' w' _ A' B' M|v' w' _ A' B' M|v' w' _ A' B' M|v' w' _ A' B' M M2 M3|(v' & w' & k & A' & B' & L & K)|(_ & k & m & f & L & (K & _) & _)|(w' & B' & M & _)].
  all: try (unfold at_ in *; rewrite A in A'; injection A' as <-). all: try (unfold at_ in *; rewrite B in B'; injection B' as <-).
  - rewrite W1, W2 in M. vm_compute in M. discriminate M.
  - congruence.
  - congruence.
  - congruence.
  - rewrite W1, W2 in K. destruct K as [(f & K & M)|K]; specialize (Qt _ (nth_error_In _ _ K)); cbv beta iota in Qt; [rewrite M in Qt|]; discriminate Qt.
  - specialize (Qt _ (nth_error_In _ _ K)). discriminate Qt.
  - congruence.
Qed.
Lemma x_fr b r w : fr wsb b r w -> snd r = 4%nat /\ snd w = 1%nat.
Proof.
  intros ((u & A & Wu & _) & (v & B & Wv & _) & _). destruct (x_ev _ _ A) as (_ & _ & _ & _ & [(E & W & _)|(E & W & _)]), (x_ev _ _ B) as (_ & _ & _ & _ & [(E' & W' & _)|(E' & W' & _)]); try congruence. auto.
Qed.
Lemma x_com b x y : com wsb b x y -> snd x = 4%nat /\ snd y = 1%nat.
Proof. intros [[]|[[]|H]]. exact (x_fr _ _ _ H). Qed.
Lemma x_poloc b x y : ~ poloc wsb b x y.
Proof.
  intros ([F L] & (v & A & C) & (w & B & D)). destruct (x_ev _ _ A) as (L1 & N1 & _ & _ & K1), (x_ev _ _ B) as (_ & N2 & _ & _ & K2). rewrite <- F in K2. unfold covers in C, D.
  assert (fst x = 0 \/ fst x = 1)%nat as [E|E] by lia; rewrite E in *; destruct K1 as [(? & ? & ?)|(? & ? & ? & _)], K2 as [(? & ? & ?)|(? & ? & ? & _)]; lia.
Qed.
Lemma x_rank (R : eid -> eid -> Prop) : (forall x y, R x y -> snd x = 4%nat /\ snd y = 1%nat) -> forall x, ~ clos_trans _ R x x.
Proof.
  intros H x K. assert (forall x y, clos_trans _ R x y -> snd x = 4%nat /\ snd y = 1%nat) as Q; [|destruct (Q _ _ K); lia].
  clear x K. intros x y K. induction K as [x y K|x y z _ [A _] _ [_ B]]; auto.
Qed.
Lemma x_sane : sane wsb.
Proof.
  constructor.
  - intros b w r [].
  - intros b w w' r [].
  - intros b r u A W C. right. split; [intros w []|]. destruct (x_ev _ _ A) as (_ & _ & _ & _ & [(_ & W' & _)|(_ & _ & _ & Z)]); [congruence|exact (Z b C)].
  - intros b x y [].
  - intros b x y z [].
  - intros b x y (v & A & W & C) (w & B & W' & D) N. exfalso. apply N. destruct (x_ev _ _ A) as (L1 & N1 & _ & _ & K1), (x_ev _ _ B) as (L2 & N2 & _ & _ & K2). unfold covers in C, D.
    destruct K1 as [(E1 & _ & Q1)|(_ & Q & _)]; [|congruence]. destruct K2 as [(E2 & _ & Q2)|(_ & Q & _)]; [|congruence].
    destruct x as [t k], y as [t' k']. cbn [fst snd] in *. assert (t = 0 \/ t = 1)%nat as [->| ->] by lia; assert (t' = 0 \/ t' = 1)%nat as [->| ->] by lia; congruence || (exfalso; lia).
  - intros b. apply x_rank. intros x y [H|H]; [destruct (x_poloc _ _ _ H)|exact (x_com _ _ _ H)].
  - intros b r w w' _ _ [].
Qed.
Theorem wsb_execution : execution T wsb.
Proof.
  constructor; [|exact x_sane|].
  - intros t q c r its H. destruct (x_calls _ _ _ _ _ H) as [(-> & -> & -> & -> & ->)|[(-> & -> & -> & -> & ->)|[(-> & -> & -> & -> & ->)|(-> & -> & -> & -> & ->)]]]; item.
  - cbn [arch_mca]. unfold mca_ok. apply x_rank. intros x y [H|(_ & _ & _ & b & H)]; [destruct (x_tlo _ _ H)|exact (x_com _ _ _ H)].
Qed.
Theorem wsb_client : cells_client wsb.
Proof.
  constructor.
  - intros t q its v b t' q' c r its' H. destruct t as [|[|t]], q as [|[|q]]; cbn in H; try discriminate H; destruct q; discriminate H.
  - intros t q c r its t' q' c' r' its' H H'. destruct (x_calls _ _ _ _ _ H) as [(-> & -> & -> & -> & ->)|[(-> & -> & -> & -> & ->)|[(-> & -> & -> & -> & ->)|(-> & -> & -> & -> & ->)]]];
    destruct (x_calls _ _ _ _ _ H') as [(-> & -> & -> & -> & ->)|[(-> & -> & -> & -> & ->)|[(-> & -> & -> & -> & ->)|(-> & -> & -> & -> & ->)]]]; cbn; unfold disjoint; cbn; (left; reflexivity) || (right; lia).
  - intros t q c r its H. destruct (x_calls _ _ _ _ _ H) as [(-> & -> & -> & -> & ->)|[(-> & -> & -> & -> & ->)|[(-> & -> & -> & -> & ->)|(-> & -> & -> & -> & ->)]]]; cbn; unfold an_integer; auto.
  - exists 2%nat. intros [|[|t]] L; try lia. reflexivity.
Qed.
Lemma rv64_wf : t_wf T.
Proof. right. split; [reflexivity|left; reflexivity]. Qed.
(* each cell by itself: the results of an interleaving *)
Example wsb_cells : (exists mf, interleaved (op_spec LE) (fun t => on_cell 0x2000 4 (calls (g_thr wsb t))) (fun _ => 0) mf) /\ (exists mf, interleaved (op_spec LE) (fun t => on_cell 0x3000 4 (calls (g_thr wsb t))) (fun _ => 0) mf).
Proof.
  split; apply (C44_sequential T wsb _ _ eq_refl rv64_wf wsb_execution wsb_client); intros t s f x y r I; destruct (in_calls _ _ _ I) as (q & its & Q);
    destruct (x_calls _ _ _ _ _ Q) as [(_ & _ & E & _)|[(_ & _ & E & _)|[(_ & _ & E & _)|(_ & _ & E & _)]]]; discriminate E.
Qed.
(* both together: not *)
Example wsb_not_together m : ~ exists mf, interleaved (op_spec LE) (fun t => calls (g_thr wsb t)) m mf.
Proof.
  intros [mf I]. remember (fun t => calls (g_thr wsb t)) as P eqn:EP. assert (P 0%nat = [(xst_A, RUnit); (xld_B, RVal 0)] /\ P 1%nat = [(xst_B, RUnit); (xld_A, RVal 0)] /\ forall t, (2 <= t)%nat -> P t = []) as (Q0 & Q1 & Q2).
  { subst P. split; [reflexivity|]. split; [reflexivity|]. intros [|[|t]] L; try lia. reflexivity. }
  clear EP. destruct I as [P m H|P Pq t c r l m m' mf H1 H2 H3 H4 H5]; [rewrite H in Q0; discriminate Q0|].
  destruct t as [|[|t]]; [| |rewrite (Q2 (S (S t)) ltac:(lia)) in H1; discriminate H1].
  - rewrite Q0 in H1. injection H1 as <- <- <-. cbn in H4. assert (rd LE m' 0x2000 4 = 7) as Rd. { rewrite (rd_meq _ _ _ _ _ H4), rd_wr_any by lia. reflexivity. }
    assert (RVal 0 = RVal (rd LE m' 0x2000 4)) as Z; [|rewrite Rd in Z; discriminate Z].
    apply (il_keep LE Pq m' mf 0x2000 4 H5) with (t := 1%nat) (o := Relaxed).
    + intros t c r J. destruct t as [|[|t]]; [rewrite H2 in J; destruct J as [J|[]]; injection J as <- <-; exact Logic.I| |rewrite (H3 (S (S t))), (Q2 (S (S t)) ltac:(lia)) in J by congruence; destruct J].
      rewrite (H3 1%nat), Q1 in J by congruence. destruct J as [J|[J|[]]]; injection J as <- <-; [unfold spares, disjoint; cbn; lia|exact Logic.I].
    + rewrite (H3 1%nat), Q1 by congruence. right. now left.
  - rewrite Q1 in H1. injection H1 as <- <- <-. cbn in H4. assert (rd LE m' 0x3000 4 = 7) as Rd. { rewrite (rd_meq _ _ _ _ _ H4), rd_wr_any by lia. reflexivity. }
    assert (RVal 0 = RVal (rd LE m' 0x3000 4)) as Z; [|rewrite Rd in Z; discriminate Z].
    apply (il_keep LE Pq m' mf 0x3000 4 H5) with (t := 0%nat) (o := Relaxed).
    + intros t c r J. destruct t as [|[|t]]; [|rewrite H2 in J; destruct J as [J|[]]; injection J as <- <-; exact Logic.I|rewrite (H3 (S (S t))), (Q2 (S (S t)) ltac:(lia)) in J by congruence; destruct J].
      rewrite (H3 0%nat), Q0 in J by congruence. destruct J as [J|[J|[]]]; injection J as <- <-; [unfold spares, disjoint; cbn; lia|exact Logic.I].
    + rewrite (H3 0%nat), Q0 by congruence. right. now left.
Qed.

(* ---- test-and-set with Relaxed: both threads swap 1 into a u32 that holds 0 ---- *)
Definition tas := OSwap 4 Relaxed 0x2000 1.
Definition tas_thr (T : arch) (t : nat) : list seg := match t with
  | O => [Call tas (RVal 0) (its_of T tas st_os (lk_regs 1))] | S O => [Call tas (RVal 1) (its_of T tas (mem_os (t_e T) 1) (lk_regs 1))] | _ => [] end.
Definition tas_of (T : arch) : graph := serial (tas_thr T) (fun _ => 0).
Lemma tas_by T : call_items T tas (its_of T tas st_os (lk_regs 1)) (RVal 0) -> call_items T tas (its_of T tas (mem_os (t_e T) 1) (lk_regs 1)) (RVal 1) ->
  match run_threads (tas_thr T) (fun _ => 0) 2 0 (fun _ => 0) with Some _ => true | None => false end = true ->
  execution T (tas_of T) /\ cells_client (tas_of T) /\ (forall t cr, In cr (on_cell 0x2000 4 (calls (g_thr (tas_of T) t))) -> ~ puts 0 cr) /\
  takes 0 (tas, RVal 0) /\ In (tas, RVal 0) (on_cell 0x2000 4 (calls (g_thr (tas_of T) 0))).
Proof.
  intros C1 C2 Run. assert (forall t q c r its, call_at (tas_of T) t q c r its -> (t = 0 /\ c = tas /\ r = RVal 0 /\ its = its_of T tas st_os (lk_regs 1))%nat \/ (t = 1 /\ c = tas /\ r = RVal 1 /\ its = its_of T tas (mem_os (t_e T) 1) (lk_regs 1))%nat) as Ca.
  { intros t q c r its H. unfold call_at in H. destruct t as [|[|t]], q as [|q]; cbn in H; try discriminate H; try (destruct q; discriminate H); injection H as <- <- <-; auto. }
  assert (forall t, (2 <= t)%nat -> tas_thr T t = []) as Em by (intros [|[|t]] L; try lia; reflexivity). split; [|split; [|split; [|split]]].
  - apply interleaving_execution with lexlt. apply (serial_interleaving T (tas_thr T) (fun _ => 0) 2); [|exact Em|destruct (run_threads _ _ _ _ _); congruence].
    intros t q c r its H. destruct (Ca _ _ _ _ _ H) as [(-> & -> & -> & ->)|(-> & -> & -> & ->)]; assumption.
  - constructor.
    + intros t q its v b t' q' c r its' H. destruct t as [|[|t]], q as [|q]; cbn in H; try discriminate H; destruct q; discriminate H.
    + intros t q c r its t' q' c' r' its' H H'. destruct (Ca _ _ _ _ _ H) as [(_ & -> & _)|(_ & -> & _)]; destruct (Ca _ _ _ _ _ H') as [(_ & -> & _)|(_ & -> & _)]; left; reflexivity.
    + intros t q c r its H. destruct (Ca _ _ _ _ _ H) as [(_ & -> & _)|(_ & -> & _)]; cbn; unfold an_integer; auto.
    + exists 2%nat. exact Em.
  - intros t [c r] I. destruct (on_in _ _ _ _ _ _ I) as [_ (q & its & H)]. destruct (Ca _ _ _ _ _ H) as [(_ & -> & _)|(_ & -> & _)]; cbn; lia.
  - reflexivity.
  - left. reflexivity.
Qed.
Ltac tas_meet := apply tas_by; [item|item|vm_compute; reflexivity].
Definition tas_met (T : arch) : Prop := execution T (tas_of T) /\ cells_client (tas_of T) /\ (forall t cr, In cr (on_cell 0x2000 4 (calls (g_thr (tas_of T) t))) -> ~ puts 0 cr) /\
  takes 0 (tas, RVal 0) /\ In (tas, RVal 0) (on_cell 0x2000 4 (calls (g_thr (tas_of T) 0))).
Example tas_riscv : tas_met (Riscv rv64).
Proof. tas_meet. Qed.
Example tas_powerpc : tas_met (Powerpc pp64).
Proof. tas_meet. Qed.
Example tas_aarch64 : tas_met (Aarch64 aa0).
Proof. tas_meet. Qed.
