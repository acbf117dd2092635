(* Executions that meet the hypotheses of C39 and C40, on RISC-V, PowerPC, AArch64: data handed over through a flag (calls SeqCst), data protected by a lock. *)
From Verif Require Import Interleave CallLink Prop_sc Ex_graph Ex_sc Ex_mp Ex_hb Ex_lock SeqCst Prop_order Examples Prop_mp Prop_hb Prop_lock Merge Prop_drf Prop_protect Prop_drfsc.
From Verif Require Import Arch_riscv Arch_powerpc Arch_aarch64.

(* thread 0: the plain write [u1], a call with one access, the write [u2]; thread 1: a call with one access, the read [v2] (of [u2]), the plain read [v1] (of [u1]) *)
Lemma only_read1 its i v : only its i v -> e_w v = false -> op_read its i.
Proof.
  intros [A U] W. right. split.
  - intros k (z & Z & Wz). pose proof (U _ _ Z) as ->. unfold at_ in *. congruence.
  - split; [exact (at_lt _ _ _ A)|]. split; [exists v; auto|]. intros k Hk (z & Z & _). pose proof (U _ _ Z) as Q. clear - Hk Q. lia.
Qed.
Section DR.
Context (T : arch) (c2 c3 : op) (r2 r3 : rval) (its2 its3 : list item) (i2 i3 : nat) (u1 u2 v2 v1 : ev) (m0 : mem).
Definition dr : graph := mkgraph
  (fun t => match t with O => [Code [IE u1]; Call c2 r2 its2] | S O => [Call c3 r3 its3; Code [IE v1]] | _ => [] end) m0
  (fun b x y => (x = (O, O) /\ y = (1, length its3 + 0)%nat /\ covers u1 b) \/ (x = (0, 1 + i2)%nat /\ y = (1%nat, i3) /\ covers u2 b)) (fun _ _ _ => False).
Hypothesis (H2 : call_items T c2 its2 r2) (H3 : call_items T c3 its3 r3).
Hypothesis (O2 : only its2 i2 u2) (O3 : only its3 i3 v2).
Hypothesis (W1 : e_w u1 = true) (W2 : e_w u2 = true) (W3 : e_w v2 = false) (W4 : e_w v1 = false).
Hypothesis (Rng1 : e_a u1 = e_a v1 /\ e_n u1 = e_n v1) (Rng2 : e_a u2 = e_a v2 /\ e_n u2 = e_n v2) (Dis : e_a u1 + e_n u1 <= e_a u2).
Hypothesis (By1 : forall b, covers u1 b -> e_b u1 b = e_b v1 b) (By2 : forall b, covers u2 b -> e_b u2 b = e_b v2 b).

Lemma one_only v : only [IE v] O v.
Proof. split; [reflexivity|]. intros [|k] w H; [reflexivity|destruct k; discriminate H]. Qed.
Notation O1 := (one_only u1).
Notation O4 := (one_only v1).
Lemma dr_0 : items dr 0 = [IE u1] ++ its2 ++ [].
Proof. reflexivity. Qed.
Lemma dr_1 : items dr 1 = its3 ++ [IE v1] ++ [].
Proof. reflexivity. Qed.
Lemma dr_ev x w : ev_at dr x w -> (x = (O, O) /\ w = u1) \/ (x = (0, 1 + i2)%nat /\ w = u2) \/ (x = (1%nat, i3) /\ w = v2) \/ (x = (1, length its3 + 0)%nat /\ w = v1).
Proof.
  destruct x as [t k]. unfold ev_at. cbn [fst snd]. destruct t as [|[|t]].
  - rewrite dr_0. intros H. destruct (pair_ev _ _ _ _ _ _ _ _ O1 O2 H) as [[-> ->]|[-> ->]]; auto.
  - rewrite dr_1. intros H. destruct (pair_ev _ _ _ _ _ _ _ _ O3 O4 H) as [[-> ->]|[-> ->]]; auto.
  - unfold at_, items, flat. cbn. destruct k; discriminate.
Qed.
Lemma dr_e1 : ev_at dr (O, O) u1.
Proof. exact (two_1 _ _ _ _ O1). Qed.
Lemma dr_e2 : ev_at dr (0, 1 + i2)%nat u2.
Proof. exact (pair_2 _ _ _ _ O2). Qed.
Lemma dr_e3 : ev_at dr (1%nat, i3) v2.
Proof. exact (two_1 _ _ _ _ O3). Qed.
Lemma dr_e4 : ev_at dr (1, length its3 + 0)%nat v1.
Proof. exact (pair_2 _ _ _ _ O4). Qed.
Lemma dr_rf b x y : g_rf dr b x y -> lexlt x y.
Proof. intros [(-> & -> & _)|(-> & -> & _)]; left; cbn; lia. Qed.
Lemma dr_fr b r w : ~ fr dr b r w.
Proof.
  intros ((v & A & W & C) & _ & H). unfold covers in *.
  destruct (dr_ev _ _ A) as [[-> ->]|[[-> ->]|[[-> ->]|[-> ->]]]]; try congruence.
  - apply (H (0, 1 + i2)%nat). right. split; auto. split; auto. unfold covers; lia.
  - apply (H (O, O)). left. split; auto. split; auto. unfold covers; lia.
Qed.
Lemma dr_com b x y : com dr b x y -> lexlt x y.
Proof. intros [H|[[]|H]]; [exact (dr_rf _ _ _ H)|]. destruct (dr_fr _ _ _ H). Qed.
Lemma dr_one b x y : writes_b dr x b -> writes_b dr y b -> x = y.
Proof.
  intros (w & A & W & C) (w' & A' & W' & C'). unfold covers in *.
  destruct (dr_ev _ _ A) as [[-> ->]|[[-> ->]|[[-> ->]|[-> ->]]]], (dr_ev _ _ A') as [[-> ->]|[[-> ->]|[[-> ->]|[-> ->]]]]; auto; try congruence; lia.
Qed.
Lemma dr_sane : sane dr.
Proof.
  constructor.
  - intros b w r [(-> & -> & C)|(-> & -> & C)]; [exists u1, v1|exists u2, v2].
    + split; [exact dr_e1|]. split; [auto|]. split; [auto|]. split; [exact dr_e4|]. split; [auto|]. split; [|auto]. unfold covers in *. lia.
    + split; [exact dr_e2|]. split; [auto|]. split; [auto|]. split; [exact dr_e3|]. split; [auto|]. split; [|auto]. unfold covers in *. lia.
  - intros b w w' r [(-> & -> & C)|(-> & -> & C)] [(-> & E & C')|(-> & E & C')]; auto; unfold covers in *; lia.
  - intros b r w A W C. left. destruct (dr_ev _ _ A) as [[-> ->]|[[-> ->]|[[-> ->]|[-> ->]]]]; try congruence.
    + exists (0, 1 + i2)%nat. right. split; auto. split; auto. unfold covers in *. lia.
    + exists (O, O). left. split; auto. split; auto. unfold covers in *. lia.
  - intros b x y [].
  - intros b x y z [].
  - intros b x y A B N. destruct (N (dr_one _ _ _ A B)).
  - intros b. apply lex_no. intros x y [[P _]|C]; [exact (mp_po _ _ P)|exact (dr_com _ _ _ C)].
  - intros b r w w' _ _ [].
Qed.
Lemma dr_tlo x y : tlo T dr x y -> lexlt x y.
Proof. exact (tlo_lex T dr x y dr_sane). Qed.
Lemma dr_hbs x y : hbs T dr x y -> x = y \/ lexlt x y.
Proof. apply lex_rt. intros a b [H|[_ [k H]]]; [exact (dr_tlo _ _ H)|exact (dr_rf _ _ _ H)]. Qed.
Lemma dr_tf x y : tfence T dr x y -> lexlt x y.
Proof. intros [E (a & b & k & _ & _ & K & _)]. right. split; auto. lia. Qed.
Lemma dr_pb x y : prop_base T dr x y -> lexlt x y.
Proof.
  intros (z & H & K). apply dr_hbs in K. assert (lexlt x z) as L.
  { destruct H as [H|(k & [_ [b H]] & H')]; [exact (dr_tf _ _ H)|]. apply dr_rf in H. apply dr_tf in H'. unfold lexlt in *. lia. }
  destruct K as [<-|K]; auto. unfold lexlt in *. lia.
Qed.
Lemma dr_prop x y : prop T dr x y -> lexlt x y.
Proof.
  intros [(H & _)|(z & H & k & K & l & L & M)]; [exact (dr_pb _ _ H)|].
  assert (x = z \/ lexlt x z) as A by (revert H; apply lex_rt; intros a b [c H]; exact (dr_com _ _ _ H)).
  assert (z = k \/ lexlt z k) as B by (revert K; apply lex_rt; exact dr_pb).
  assert (lexlt k l) as C by (destruct L as [E (_ & _ & n & K1 & _)]; right; split; auto; lia).
  apply dr_hbs in M. destruct A as [<-|A], B as [<-|B], M as [<-|M]; auto; unfold lexlt in *; lia.
Qed.
Theorem dr_execution : execution T dr.
Proof.
  constructor; [|exact dr_sane|].
  - intros t q c r its H. destruct t as [|[|t]], q as [|[|q]]; cbn in H; try discriminate H; try (destruct q; discriminate H); injection H as <- <- <-; auto.
  - destruct (arch_mca T).
    + unfold mca_ok. apply lex_no. intros x y [H|(_ & _ & _ & b & H)]; [exact (dr_tlo _ _ H)|exact (dr_com _ _ _ H)].
    + constructor.
      * apply lex_no. intros x y [H|[_ [k H]]]; [exact (dr_tlo _ _ H)|exact (dr_rf _ _ _ H)].
      * intros x (y & [_ [b F]] & _). destruct (dr_fr _ _ _ F).
      * apply lex_no. intros x y [[b []]|H]. exact (dr_prop _ _ H).
      * intros b b' x y [].
      * intros b b' x y _ F. destruct (dr_fr _ _ _ F).
Qed.
Lemma dr_plain x v : plain_at dr x v -> (x = (O, O) /\ v = u1) \/ (x = (1, length its3)%nat /\ v = v1).
Proof.
  destruct x as [t k]. intros (q & its & i & Hq & A & E). cbn [fst snd] in *. destruct t as [|[|t]], q as [|[|q]]; cbn in Hq; try discriminate Hq; try (destruct q; discriminate Hq); injection Hq as <-; (destruct i as [|i]; [|destruct i; discriminate A]); injection A as <-.
  - left. split; [|reflexivity]. now rewrite E.
  - right. split; [|reflexivity]. rewrite E. unfold base, flat. cbn. now rewrite app_nil_r, Nat.add_0_r.
Qed.
Lemma dr_calls t q c r its : call_at dr t q c r its -> (t = 0 /\ q = 1 /\ c = c2 /\ r = r2 /\ its = its2)%nat \/ (t = 1 /\ q = 0 /\ c = c3 /\ r = r3 /\ its = its3)%nat.
Proof. intros H. unfold call_at in H. destruct t as [|[|t]], q as [|[|q]]; cbn in H; try discriminate H; try (destruct q; discriminate H); injection H as <- <- <-; auto 10. Qed.
Context (Ec2 : op_cell c2 = (e_a u2, e_n u2)) (Ec3 : op_cell c3 = (e_a u2, e_n u2)) (Sz : 0 < e_n u2) (Wh : e_t u1 = false /\ e_t v1 = false).
Lemma dr_takes : releases (weff c2) = true -> is_store c3 = false -> acquires (eff c3 r3) = true -> takes_from dr (O, 1%nat) (1%nat, O).
Proof.
  intros R N A. exists c2, r2, its2, c3, r3, its3, (0, 1 + i2)%nat, (0, 1 + i2)%nat, (1%nat, i3), (e_a u2). cbn [fst snd].
  split; [reflexivity|]. split; [exact R|]. split; [split; [reflexivity|]; exists i2; split; [reflexivity|]; exists u2; split; [apply O2|exact W2]|].
  split; [reflexivity|]. split; [exact N|]. split; [exact A|]. split; [split; [reflexivity|]; exists i3; split; [reflexivity|]; exact (only_read1 _ _ _ O3 W3)|].
  split; [congruence|]. split; [unfold in_cell; rewrite Ec3; cbn [fst snd]; clear - Sz; lia|]. split; [apply cr_head|]. right. split; [reflexivity|]. split; [reflexivity|]. unfold covers. clear - Sz. lia.
Qed.
Theorem dr_race_free : releases (weff c2) = true -> is_store c3 = false -> acquires (eff c3 r3) = true -> race_free dr (sc_happens_before dr).
Proof.
  intros R N A. assert (sc_happens_before dr (O, O) (1, length its3)%nat) as Hb.
  { right. exists O, 1%nat, 1%nat, O. split; [split; [reflexivity|]; cbn; lia|]. split; [apply sr_one; now apply dr_takes|]. split; [reflexivity|]. unfold base, flat. cbn. rewrite app_nil_r. lia. }
  constructor.
  - intros x y (v & u & b & Px & Py & _) Ne. destruct (dr_plain _ _ Px) as [[-> _]|[-> _]], (dr_plain _ _ Py) as [[-> _]|[-> _]]; cbn [fst] in Ne; try congruence; auto.
  - intros x v b t q c r its Px Cv C. unfold in_cell, covers in *. destruct (dr_calls _ _ _ _ _ C) as [(_ & _ & -> & _)|(_ & _ & -> & _)]; rewrite ?Ec2, ?Ec3; cbn [fst snd]; destruct (dr_plain _ _ Px) as [[_ ->]|[_ ->]]; lia.
  - intros x v Px. destruct (dr_plain _ _ Px) as [[_ ->]|[_ ->]]; apply Wh.
  - exists 2%nat. clear. intros [|[|t]] L; try lia. reflexivity.
Qed.
Theorem dr_client : total_order (eff c2 r2) = true -> total_order (eff c3 r3) = true -> sc_client dr.
Proof.
  intros S2 S3. constructor.
  - intros t q c r its H. destruct (dr_calls _ _ _ _ _ H) as [(-> & -> & -> & -> & ->)|(-> & -> & -> & -> & ->)]; auto.
  - intros t q its v b t' q' c r its' H I W C H'. unfold in_cell, covers in *.
    assert (v = u1 \/ v = v1) as Ev. { destruct t as [|[|t]], q as [|[|q]]; cbn in H; try discriminate H; try (destruct q; discriminate H); injection H as <-; destruct I as [I|[]]; injection I as <-; auto. }
    destruct (dr_calls _ _ _ _ _ H') as [(_ & _ & -> & _)|(_ & _ & -> & _)]; rewrite ?Ec2, ?Ec3; cbn [fst snd]; destruct Ev as [->| ->]; lia.
  - intros t q c r its t' q' c' r' its' H H'. left. destruct (dr_calls _ _ _ _ _ H) as [(_ & _ & -> & _)|(_ & _ & -> & _)], (dr_calls _ _ _ _ _ H') as [(_ & _ & -> & _)|(_ & _ & -> & _)]; congruence.
  - exists 2%nat. clear. intros [|[|t]] L; try lia. reflexivity.
Qed.
End DR.

(* u32 at 0x1000: data, not atomic; u32 B at 0x3000, 0 at first; thread 0: writes the data, B.store(7, SeqCst); thread 1: B.load(SeqCst) = 7, reads the data *)
Definition dr_of (T : arch) : graph :=
  let k2 := its_of T st_B st_os (rgs 0x3000) in let k3 := its_of T ld_B (ld3_os (t_e T)) (rgs 0x3000) in
  dr st_B ld_B RUnit (RVal 7) k2 k3 (hd O (evs k2 0)) (hd O (evs k3 0)) (data true) (nth_ev k2 (hd O (evs k2 0))) (data false) (fun _ => 0).
(* all hypotheses of C40_drf_sc and of C39_race_free_data; the data is shared *)
Definition dr_met (T : arch) : Prop := t_ie T = None /\ t_wf T /\ execution T (dr_of T) /\ sc_client (dr_of T) /\ race_free (dr_of T) (sc_happens_before (dr_of T)) /\
  race_free (dr_of T) (happens_before (dr_of T)) /\
  acts (g_thr (dr_of T) 0) = [AMem (data true); ACall st_B RUnit] /\ acts (g_thr (dr_of T) 1) = [ACall ld_B (RVal 7); AMem (data false)] /\
  exists x y, fst x <> fst y /\ conflict (dr_of T) x y.
Lemma dr_by T : t_wf T -> t_ie T = None ->
  call_items T st_B (its_of T st_B st_os (rgs 0x3000)) RUnit -> call_items T ld_B (its_of T ld_B (ld3_os (t_e T)) (rgs 0x3000)) (RVal 7) ->
  ok1 (its_of T st_B st_os (rgs 0x3000)) true 0x3000 = true -> ok1 (its_of T ld_B (ld3_os (t_e T)) (rgs 0x3000)) false 0x3000 = true ->
  (let k2 := its_of T st_B st_os (rgs 0x3000) in let k3 := its_of T ld_B (ld3_os (t_e T)) (rgs 0x3000) in
   forall b, 0x3000 <= b < 0x3004 -> e_b (nth_ev k2 (hd O (evs k2 0))) b = e_b (nth_ev k3 (hd O (evs k3 0))) b) -> dr_met T.
Proof.
  cbv zeta. intros W Ie C2 C3 K2 K3 By2. apply ok1_ok in K2, K3. cbv zeta in K2, K3. destruct K2 as (O2 & W2 & A2 & N2), K3 as (O3 & W3 & A3 & N3).
  assert (race_free (dr_of T) (sc_happens_before (dr_of T))) as Rf.
  { unfold dr_of. cbv zeta. eapply dr_race_free; eauto; try reflexivity; try (split; reflexivity); rewrite ?A2, ?N2; cbn; try lia; try congruence. }
  split; [exact Ie|]. split; [exact W|]. split; [|split; [|split; [exact Rf|]]].
  - unfold dr_of. cbv zeta. eapply dr_execution; eauto; try reflexivity; try (split; congruence).
    + rewrite A2. cbn. lia.
    + intros b Hb. apply By2. unfold covers in Hb. rewrite A2, N2 in Hb. exact Hb.
  - unfold dr_of. cbv zeta. eapply dr_client; eauto; try reflexivity; rewrite ?A2, ?N2; cbn; try lia; try congruence.
  - split; [destruct Rf as [R1 R2 R3 R4]; constructor; auto; intros x y C Ne; destruct (R1 x y C Ne) as [H|H]; [left|right]; now apply sc_hb_sub|]. split; [reflexivity|]. split; [reflexivity|].
    exists (O, O), (1, length (its_of T ld_B (ld3_os (t_e T)) (rgs 0x3000)))%nat. split; [discriminate|]. exists (data true), (data false), 0x1000.
    split; [exists O, [IE (data true)], O; repeat split|]. split; [exists 1%nat, [IE (data false)], O; split; [reflexivity|]; split; [reflexivity|]|]; [unfold base, flat; cbn; rewrite app_nil_r; lia|].
    split; [unfold covers; cbn; lia|]. split; [unfold covers; cbn; lia|]. now left.
Qed.
Ltac dr_meet := apply dr_by; [|reflexivity|item|item|vm_compute; reflexivity|vm_compute; reflexivity|cbv zeta; bytes4 0x3000].
Example dr_riscv : dr_met (Riscv rv64).
Proof. dr_meet. right; split; [reflexivity|left; reflexivity]. Qed.
Example dr_powerpc : dr_met (Powerpc pp64).
Proof. dr_meet. right. reflexivity. Qed.
Example dr_aarch64 : dr_met (Aarch64 aa0).
Proof. dr_meet. exact Logic.I. Qed.

(* the hypotheses of C39_locked_data *)
Theorem lk_race_free T : lk_met T -> race_free (lk_of T) (common_lock T (lk_of T)).
Proof.
  intros (_ & _ & _ & Lc & H0 & H1 & _). set (k1 := length (its_of T lk_take st_os (lk_regs 1))).
  assert (forall x v, plain_at (lk_of T) x v -> (x = (O, k1) /\ v = data true) \/ (x = (1%nat, k1) /\ v = data false)) as Pl.
  { intros [t k] v (q & its & i & Hq & A & E). cbn [fst snd] in *. assert (t < 2)%nat as Ht by (destruct t as [|[|t]]; [lia|lia|cbn in Hq; destruct q; discriminate Hq]).
    assert (base (lk_of T) t 1 = k1) as B by (unfold lk_of; cbv zeta; eapply lk_base; exact Ht).
    destruct t as [|[|t]], q as [|[|[|q]]]; cbn in Hq; try discriminate Hq; try (destruct q; discriminate Hq); try lia; injection Hq as <-; (destruct i as [|i]; [|destruct i; discriminate A]); injection A as <-; rewrite E, B, Nat.add_0_r; auto. }
  assert (forall t, (t < 2)%nat -> inside (lk_of T) (t, k1) t 0 2) as Ins by (intros t Ht; unfold lk_of; cbv zeta; eapply lk_inside; exact Ht).
  constructor.
  - intros x y (v & u & b & Px & Py & _) Ne. destruct (Pl _ _ Px) as [[-> _]|[-> _]], (Pl _ _ Py) as [[-> _]|[-> _]]; cbn [fst] in Ne; try congruence; [left|right]; exists 0x2000, 4, O, O, 2%nat, 1%nat, O, 2%nat;
      (split; [exact Lc|]; split; [exact H0|]; split; [apply Ins; lia|]; split; [exact H1|apply Ins; lia]).
  - intros x v b t q c r its Px Cv C. unfold covers, in_cell in *. assert (op_cell c = (0x2000, 4)) as ->.
    { destruct t as [|[|t]], q as [|[|[|q]]]; cbn in C; try discriminate C; try (destruct q; discriminate C); injection C as <- <- <-; reflexivity. }
    destruct (Pl _ _ Px) as [[_ ->]|[_ ->]]; cbn in *; lia.
  - intros x v Px. destruct (Pl _ _ Px) as [[_ ->]|[_ ->]]; reflexivity.
  - exists 2%nat. clear. intros [|[|t]] L; try lia. reflexivity.
Qed.
Example lkd_riscv : race_free (lk_of (Riscv rv64)) (common_lock (Riscv rv64) (lk_of (Riscv rv64))).
Proof. exact (lk_race_free _ lk_riscv). Qed.
Example lkd_powerpc : race_free (lk_of (Powerpc pp64)) (common_lock (Powerpc pp64) (lk_of (Powerpc pp64))).
Proof. exact (lk_race_free _ lk_powerpc). Qed.
Example lkd_aarch64 : race_free (lk_of (Aarch64 aa0)) (common_lock (Aarch64 aa0) (lk_of (Aarch64 aa0))).
Proof. exact (lk_race_free _ lk_aarch64). Qed.
