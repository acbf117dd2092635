(* Executions that meet the hypotheses of C28_message_passing, on RISC-V, PowerPC, AArch64. *)
From Verif Require Import Interleave CallLink Prop_sc Ex_graph Ex_sc SeqCst Prop_order Examples Prop_mp.
From Verif Require Import Arch_riscv Arch_powerpc Arch_aarch64.

Lemma pair_ev l l' i i' v v' k w : only l i v -> only l' i' v' -> at_ (l ++ l' ++ []) k w -> (k = i /\ w = v) \/ (k = length l + i' /\ w = v')%nat.
Proof.
  intros [A B] [A' B'] H. rewrite app_nil_r in H. unfold at_ in *. destruct (Nat.lt_ge_cases k (length l)) as [L|L].
  - rewrite nth_error_app1 in H by auto. pose proof (B _ _ H) as ->. rewrite A in H. injection H as <-. auto.
  - rewrite nth_error_app2 in H by auto. pose proof (B' _ _ H) as E. rewrite E in H. rewrite A' in H. injection H as <-. right. split; auto. lia.
Qed.
Lemma pair_2 l l' i v : only l' i v -> at_ (l ++ l' ++ []) (length l + i) v.
Proof. intros [A B]. unfold at_ in *. rewrite app_nil_r, nth_error_app2 by lia. now replace (length l + i - length l)%nat with i by lia. Qed.
(* thread 0: calls with one access each, the writes [u1], [u2]; thread 1: the reads [v2] (of [u2]), [v1] (of [u1]). *)
Section MP4.
Context (T : arch) (c1 c2 c3 c4 : op) (r1 r2 r3 r4 : rval) (its1 its2 its3 its4 : list item) (i1 i2 i3 i4 : nat) (u1 u2 v2 v1 : ev) (m0 : mem).
Definition mp4 : graph := mkgraph
  (fun t => match t with O => [Call c1 r1 its1; Call c2 r2 its2] | S O => [Call c3 r3 its3; Call c4 r4 its4] | _ => [] end) m0
  (fun b x y => (x = (O, i1) /\ y = (1, length its3 + i4)%nat /\ covers u1 b) \/ (x = (0, length its1 + i2)%nat /\ y = (1%nat, i3) /\ covers u2 b)) (fun _ _ _ => False).
Hypothesis (H1 : call_items T c1 its1 r1) (H2 : call_items T c2 its2 r2) (H3 : call_items T c3 its3 r3) (H4 : call_items T c4 its4 r4).
Hypothesis (O1 : only its1 i1 u1) (O2 : only its2 i2 u2) (O3 : only its3 i3 v2) (O4 : only its4 i4 v1).
Hypothesis (W1 : e_w u1 = true) (W2 : e_w u2 = true) (W3 : e_w v2 = false) (W4 : e_w v1 = false).
Hypothesis (Rng1 : e_a u1 = e_a v1 /\ e_n u1 = e_n v1) (Rng2 : e_a u2 = e_a v2 /\ e_n u2 = e_n v2) (Dis : e_a u1 + e_n u1 <= e_a u2).
Hypothesis (By1 : forall b, covers u1 b -> e_b u1 b = e_b v1 b) (By2 : forall b, covers u2 b -> e_b u2 b = e_b v2 b).

Lemma mp4_0 : items mp4 0 = its1 ++ its2 ++ [].
Proof. reflexivity. Qed.
Lemma mp4_1 : items mp4 1 = its3 ++ its4 ++ [].
Proof. reflexivity. Qed.
Lemma mp4_ev x w : ev_at mp4 x w -> (x = (O, i1) /\ w = u1) \/ (x = (0, length its1 + i2)%nat /\ w = u2) \/ (x = (1%nat, i3) /\ w = v2) \/ (x = (1, length its3 + i4)%nat /\ w = v1).
Proof.
  destruct x as [t k]. unfold ev_at. cbn [fst snd]. destruct t as [|[|t]].
  - rewrite mp4_0. intros H. destruct (pair_ev _ _ _ _ _ _ _ _ O1 O2 H) as [[-> ->]|[-> ->]]; auto.
  - rewrite mp4_1. intros H. destruct (pair_ev _ _ _ _ _ _ _ _ O3 O4 H) as [[-> ->]|[-> ->]]; auto.
  - unfold at_, items, flat. cbn. destruct k; discriminate.
Qed.
Lemma mp4_e1 : ev_at mp4 (O, i1) u1.
Proof. exact (two_1 _ _ _ _ O1). Qed.
Lemma mp4_e2 : ev_at mp4 (0, length its1 + i2)%nat u2.
Proof. exact (pair_2 _ _ _ _ O2). Qed.
Lemma mp4_e3 : ev_at mp4 (1%nat, i3) v2.
Proof. exact (two_1 _ _ _ _ O3). Qed.
Lemma mp4_e4 : ev_at mp4 (1, length its3 + i4)%nat v1.
Proof. exact (pair_2 _ _ _ _ O4). Qed.
Lemma mp4_rf b x y : g_rf mp4 b x y -> lexlt x y.
Proof. intros [(-> & -> & _)|(-> & -> & _)]; left; cbn; lia. Qed.
Lemma mp4_fr b r w : ~ fr mp4 b r w.
Proof.
  intros ((v & A & W & C) & _ & H). unfold covers in *.
  destruct (mp4_ev _ _ A) as [[-> ->]|[[-> ->]|[[-> ->]|[-> ->]]]]; try congruence.
  - apply (H (0, length its1 + i2)%nat). right. split; auto. split; auto. unfold covers; lia.
  - apply (H (O, i1)). left. split; auto. split; auto. unfold covers; lia.
Qed.
Lemma mp4_com b x y : com mp4 b x y -> lexlt x y.
Proof. intros [H|[[]|H]]; [exact (mp4_rf _ _ _ H)|]. destruct (mp4_fr _ _ _ H). Qed.
Lemma mp4_one b x y : writes_b mp4 x b -> writes_b mp4 y b -> x = y.
Proof.
  intros (w & A & W & C) (w' & A' & W' & C'). unfold covers in *.
  destruct (mp4_ev _ _ A) as [[-> ->]|[[-> ->]|[[-> ->]|[-> ->]]]], (mp4_ev _ _ A') as [[-> ->]|[[-> ->]|[[-> ->]|[-> ->]]]]; auto; try congruence; lia.
Qed.
Lemma mp4_sane : sane mp4.
Proof.
  constructor.
  - intros b w r [(-> & -> & C)|(-> & -> & C)]; [exists u1, v1|exists u2, v2].
    + split; [exact mp4_e1|]. split; [auto|]. split; [auto|]. split; [exact mp4_e4|]. split; [auto|]. split; [|auto]. unfold covers in *. lia.
    + split; [exact mp4_e2|]. split; [auto|]. split; [auto|]. split; [exact mp4_e3|]. split; [auto|]. split; [|auto]. unfold covers in *. lia.
  - intros b w w' r [(-> & -> & C)|(-> & -> & C)] [(-> & E & C')|(-> & E & C')]; auto; unfold covers in *; lia.
  - intros b r w A W C. left. destruct (mp4_ev _ _ A) as [[-> ->]|[[-> ->]|[[-> ->]|[-> ->]]]]; try congruence.
    + exists (0, length its1 + i2)%nat. right. split; auto. split; auto. unfold covers in *. lia.
    + exists (O, i1). left. split; auto. split; auto. unfold covers in *. lia.
  - intros b x y [].
  - intros b x y z [].
  - intros b x y A B N. destruct (N (mp4_one _ _ _ A B)).
  - intros b. apply lex_no. intros x y [[P _]|C]; [exact (mp_po _ _ P)|exact (mp4_com _ _ _ C)].
  - intros b r w w' _ _ [].
Qed.
Lemma mp4_tlo x y : tlo T mp4 x y -> lexlt x y.
Proof. exact (tlo_lex T mp4 x y mp4_sane). Qed.
Lemma mp4_hbs x y : hbs T mp4 x y -> x = y \/ lexlt x y.
Proof. apply lex_rt. intros a b [H|[_ [k H]]]; [exact (mp4_tlo _ _ H)|exact (mp4_rf _ _ _ H)]. Qed.
Lemma mp4_tf x y : tfence T mp4 x y -> lexlt x y.
Proof. intros [E (a & b & k & _ & _ & K & _)]. right. split; auto. lia. Qed.
Lemma mp4_pb x y : prop_base T mp4 x y -> lexlt x y.
Proof.
  intros (z & H & K). apply mp4_hbs in K. assert (lexlt x z) as L.
  { destruct H as [H|(k & [_ [b H]] & H')]; [exact (mp4_tf _ _ H)|]. apply mp4_rf in H. apply mp4_tf in H'. unfold lexlt in *. lia. }
  destruct K as [<-|K]; auto. unfold lexlt in *. lia.
Qed.
Lemma mp4_prop x y : prop T mp4 x y -> lexlt x y.
Proof.
  intros [(H & _)|(z & H & k & K & l & L & M)]; [exact (mp4_pb _ _ H)|].
  assert (x = z \/ lexlt x z) as A by (revert H; apply lex_rt; intros a b [c H]; exact (mp4_com _ _ _ H)).
  assert (z = k \/ lexlt z k) as B by (revert K; apply lex_rt; exact mp4_pb).
  assert (lexlt k l) as C by (destruct L as [E (_ & _ & n & K1 & _)]; right; split; auto; lia).
  apply mp4_hbs in M. destruct A as [<-|A], B as [<-|B], M as [<-|M]; auto; unfold lexlt in *; lia.
Qed.
Theorem mp4_execution : execution T mp4.
Proof.
  constructor; [|exact mp4_sane|].
  - intros t q c r its H. destruct t as [|[|t]], q as [|[|q]]; cbn in H; try discriminate H; try (destruct q; discriminate H); injection H as <- <- <-; auto.
  - destruct (arch_mca T).
    + unfold mca_ok. apply lex_no. intros x y [H|(_ & _ & _ & b & H)]; [exact (mp4_tlo _ _ H)|exact (mp4_com _ _ _ H)].
    + constructor.
      * apply lex_no. intros x y [H|[_ [k H]]]; [exact (mp4_tlo _ _ H)|exact (mp4_rf _ _ _ H)].
      * intros x (y & [_ [b F]] & _). destruct (mp4_fr _ _ _ F).
      * apply lex_no. intros x y [[b []]|H]. exact (mp4_prop _ _ H).
      * intros b b' x y [].
      * intros b b' x y _ F. destruct (mp4_fr _ _ _ F).
Qed.
Theorem mp4_only : op_cell c1 = (e_a u1, e_n u1) -> op_cell c2 = (e_a u2, e_n u2) -> only_writer mp4 (op_cell c1) 0 0 /\ only_writer mp4 (op_cell c2) 0 1.
Proof.
  intros E1 E2. pose proof (at_lt _ _ _ (proj1 O1)) as L1. pose proof (at_lt _ _ _ (proj1 O2)) as L2.
  assert (base mp4 0 0 = 0 /\ base mp4 0 1 = length its1 /\ base mp4 0 2 = length its1 + length its2)%nat as (B0 & B1 & B2).
  { unfold base, flat. cbn. rewrite !app_length. cbn. rewrite !Nat.add_0_r. auto. }
  split; intros w b Hb (v & A & W & C); unfold covers in C; rewrite ?E1, ?E2 in Hb; cbn [fst snd] in Hb; destruct (mp4_ev _ _ A) as [[-> ->]|[[-> ->]|[[-> ->]|[-> ->]]]]; try congruence; cbn [fst snd]; try lia.
Qed.
End MP4.

(* u32 A at 0x2000 (data), u32 B at 0x3000 (flag), both 0 at first; thread 0: A.store(7, Relaxed), B.store(7, Release); thread 1: B.load(Acquire) = 7, A.load(Relaxed) = 7 *)
Definition mst_A := OStore 4 Relaxed 0x2000 7.
Definition mst_B := OStore 4 Release 0x3000 7.
Definition mld_B := OLoad 4 Acquire 0x3000.
Definition mld_A := OLoad 4 Relaxed 0x2000.
Definition ld3_os (e : endian) : list oracle := map (fun '(b, ok, j) => mkor (bytes b) ok j) (repeat ([(match e with LE => 0x3000 | BE => 0x3003 end, 7)], true, 0) 30).
Definition mp4_of (T : arch) : graph :=
  let k1 := its_of T mst_A st_os (rgs 0x2000) in let k2 := its_of T mst_B st_os (rgs 0x3000) in
  let k3 := its_of T mld_B (ld3_os (t_e T)) (rgs 0x3000) in let k4 := its_of T mld_A (ld_os (t_e T)) (rgs 0x2000) in
  mp4 mst_A mst_B mld_B mld_A RUnit RUnit (RVal 7) (RVal 7) k1 k2 k3 k4 (hd O (evs k1 0)) (hd O (evs k2 0)) (hd O (evs k3 0)) (hd O (evs k4 0))
    (nth_ev k1 (hd O (evs k1 0))) (nth_ev k2 (hd O (evs k2 0))) (fun _ => 0).
(* all hypotheses of C28_message_passing *)
Definition mp4_met (T : arch) : Prop := t_ie T = None /\ t_wf T /\ execution T (mp4_of T) /\
  (exists i0 i1 i2 i3, call_at (mp4_of T) 0 0 mst_A RUnit i0 /\ call_at (mp4_of T) 0 1 mst_B RUnit i1 /\ call_at (mp4_of T) 1 0 mld_B (RVal 7) i2 /\ call_at (mp4_of T) 1 1 mld_A (RVal 7) i3) /\
  only_writer (mp4_of T) (0x2000, 4) 0 0 /\ only_writer (mp4_of T) (op_cell mst_B) 0 1 /\
  releases (weff mst_B) = true /\ acquires (eff mld_B (RVal 7)) = true /\ 7 <> rd (t_e T) (g_init (mp4_of T)) 0x3000 4.
Lemma mp4_by T : t_wf T -> t_ie T = None ->
  call_items T mst_A (its_of T mst_A st_os (rgs 0x2000)) RUnit -> call_items T mst_B (its_of T mst_B st_os (rgs 0x3000)) RUnit ->
  call_items T mld_B (its_of T mld_B (ld3_os (t_e T)) (rgs 0x3000)) (RVal 7) -> call_items T mld_A (its_of T mld_A (ld_os (t_e T)) (rgs 0x2000)) (RVal 7) ->
  ok1 (its_of T mst_A st_os (rgs 0x2000)) true 0x2000 = true -> ok1 (its_of T mst_B st_os (rgs 0x3000)) true 0x3000 = true ->
  ok1 (its_of T mld_B (ld3_os (t_e T)) (rgs 0x3000)) false 0x3000 = true -> ok1 (its_of T mld_A (ld_os (t_e T)) (rgs 0x2000)) false 0x2000 = true ->
  (let k1 := its_of T mst_A st_os (rgs 0x2000) in let k4 := its_of T mld_A (ld_os (t_e T)) (rgs 0x2000) in
   forall b, 0x2000 <= b < 0x2004 -> e_b (nth_ev k1 (hd O (evs k1 0))) b = e_b (nth_ev k4 (hd O (evs k4 0))) b) ->
  (let k2 := its_of T mst_B st_os (rgs 0x3000) in let k3 := its_of T mld_B (ld3_os (t_e T)) (rgs 0x3000) in
   forall b, 0x3000 <= b < 0x3004 -> e_b (nth_ev k2 (hd O (evs k2 0))) b = e_b (nth_ev k3 (hd O (evs k3 0))) b) -> mp4_met T.
Proof.
  cbv zeta. intros W Ie C1 C2 C3 C4 K1 K2 K3 K4 By1 By2. apply ok1_ok in K1, K2, K3, K4. cbv zeta in K1, K2, K3, K4.
  destruct K1 as (O1 & W1 & A1 & N1), K2 as (O2 & W2 & A2 & N2), K3 as (O3 & W3 & A3 & N3), K4 as (O4 & W4 & A4 & N4).
  split; auto. split; auto. split.
  - unfold mp4_of. cbv zeta. eapply mp4_execution; eauto; try (split; congruence).
    + rewrite A1, N1, A2. lia.
    + intros b Hb. apply By1. unfold covers in Hb. rewrite A1, N1 in Hb. exact Hb.
    + intros b Hb. apply By2. unfold covers in Hb. rewrite A2, N2 in Hb. exact Hb.
  - split; [do 4 eexists; split; [reflexivity|]; split; [reflexivity|]; split; reflexivity|].
    match goal with |- ?P /\ ?Q /\ ?R => cut (P /\ Q); [intros [P1 P2]; split; [exact P1|]; split; [exact P2|]|] end.
    + split; [reflexivity|]. split; [reflexivity|]. change (g_init (mp4_of T)) with (fun _ : Z => 0). destruct (t_e T); vm_compute; congruence.
    + unfold mp4_of. cbv zeta. change (0x2000, 4) with (op_cell mst_A). eapply mp4_only; eauto; [rewrite A1, A2, N1; lia| |]; cbn [mst_A mst_B op_cell]; congruence.
Qed.
Ltac mp4_meet := apply mp4_by; [|reflexivity|item|item|item|item|vm_compute; reflexivity|vm_compute; reflexivity|vm_compute; reflexivity|vm_compute; reflexivity|cbv zeta; bytes4 0x2000|cbv zeta; bytes4 0x3000].
Example mp4_riscv : mp4_met (Riscv rv64).
Proof. mp4_meet. right; split; [reflexivity|left; reflexivity]. Qed.
Example mp4_powerpc : mp4_met (Powerpc pp64).
Proof. mp4_meet. right. reflexivity. Qed.
Example mp4_aarch64 : mp4_met (Aarch64 aa0).
Proof. mp4_meet. exact Logic.I. Qed.
