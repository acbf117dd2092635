(* Executions that meet the hypotheses of C26_interleaving and C26_store_buffering_results: store buffering on RISC-V, PowerPC, AArch64. *)
From Verif Require Import Interleave CallLink Prop_sc Ex_graph SeqCst Prop_order Examples.
From Verif Require Import Arch_riscv Arch_powerpc Arch_aarch64.

(* thread 0: calls with one access each, the write [u1], the read [v1]; thread 1: the write [u2] (where [v1] reads), the read [v2] (of [u1]). *)
Section SB.
Context (T : arch) (c1 c2 c3 c4 : op) (r1 r2 r3 r4 : rval) (its1 its2 its3 its4 : list item) (i1 i2 i3 i4 : nat) (u1 v1 u2 v2 : ev) (m0 : mem).
Definition sb : graph := mkgraph
  (fun t => match t with O => [Call c1 r1 its1; Call c2 r2 its2] | S O => [Call c3 r3 its3; Call c4 r4 its4] | _ => [] end) m0
  (fun b x y => x = (O, i1) /\ y = (1, length its3 + i4)%nat /\ covers u1 b) (fun _ _ _ => False).
Hypothesis (H1 : call_items T c1 its1 r1) (H2 : call_items T c2 its2 r2) (H3 : call_items T c3 its3 r3) (H4 : call_items T c4 its4 r4).
Hypothesis (O1 : only its1 i1 u1) (O2 : only its2 i2 v1) (O3 : only its3 i3 u2) (O4 : only its4 i4 v2).
Hypothesis (W1 : e_w u1 = true) (W2 : e_w v1 = false) (W3 : e_w u2 = true) (W4 : e_w v2 = false).
Hypothesis (Rng1 : e_a u1 = e_a v2 /\ e_n u1 = e_n v2) (Rng2 : e_a u2 = e_a v1 /\ e_n u2 = e_n v1) (Dis : e_a u1 + e_n u1 <= e_a u2).
Hypothesis (By1 : forall b, covers u1 b -> e_b u1 b = e_b v2 b) (By2 : forall b, covers v1 b -> e_b v1 b = m0 b).

Lemma sb0 : items sb 0 = its1 ++ its2 ++ [].
Proof. reflexivity. Qed.
Lemma sb1 : items sb 1 = its3 ++ its4 ++ [].
Proof. reflexivity. Qed.
Lemma two_ev l l' i i' v v' k w : only l i v -> only l' i' v' -> at_ (l ++ l' ++ []) k w -> (k = i /\ w = v) \/ (k = length l + i' /\ w = v')%nat.
Proof.
  intros [A B] [A' B'] H. rewrite app_nil_r in H. unfold at_ in *. destruct (Nat.lt_ge_cases k (length l)) as [L|L].
  - rewrite nth_error_app1 in H by auto. pose proof (B _ _ H) as ->. rewrite A in H. injection H as <-. auto.
  - rewrite nth_error_app2 in H by auto. pose proof (B' _ _ H) as E. rewrite E in H. rewrite A' in H. injection H as <-. right. split; auto. lia.
Qed.
Lemma two_1 l l' i v : only l i v -> at_ (l ++ l' ++ []) i v.
Proof. intros [A B]. unfold at_ in *. rewrite nth_error_app1; auto. exact (at_lt _ _ _ A). Qed.
Lemma two_2 l l' i v : only l' i v -> at_ (l ++ l' ++ []) (length l + i) v.
Proof. intros [A B]. unfold at_ in *. rewrite app_nil_r, nth_error_app2 by lia. now replace (length l + i - length l)%nat with i by lia. Qed.
Lemma sb_ev x w : ev_at sb x w -> (x = (O, i1) /\ w = u1) \/ (x = (0, length its1 + i2)%nat /\ w = v1) \/ (x = (1%nat, i3) /\ w = u2) \/ (x = (1, length its3 + i4)%nat /\ w = v2).
Proof.
  destruct x as [t k]. unfold ev_at. cbn [fst snd]. destruct t as [|[|t]].
  - rewrite sb0. intros H. destruct (two_ev _ _ _ _ _ _ _ _ O1 O2 H) as [[-> ->]|[-> ->]]; auto.
  - rewrite sb1. intros H. destruct (two_ev _ _ _ _ _ _ _ _ O3 O4 H) as [[-> ->]|[-> ->]]; auto.
  - unfold at_, items, flat. cbn. destruct k; discriminate.
Qed.
Lemma sb_e1 : ev_at sb (O, i1) u1.
Proof. exact (two_1 _ _ _ _ O1). Qed.
Lemma sb_e2 : ev_at sb (0, length its1 + i2)%nat v1.
Proof. exact (two_2 _ _ _ _ O2). Qed.
Lemma sb_e3 : ev_at sb (1%nat, i3) u2.
Proof. exact (two_1 _ _ _ _ O3). Qed.
Lemma sb_e4 : ev_at sb (1, length its3 + i4)%nat v2.
Proof. exact (two_2 _ _ _ _ O4). Qed.
Lemma sb_rf b x y : g_rf sb b x y -> lexlt x y.
Proof. intros (-> & -> & _); left; cbn; lia. Qed.
Lemma sb_fr b r w : fr sb b r w -> r = (0, length its1 + i2)%nat /\ w = (1%nat, i3).
Proof.
  intros ((v & A & W & C) & (v' & A' & W' & C') & H). unfold covers in *.
  destruct (sb_ev _ _ A) as [[-> ->]|[[-> ->]|[[-> ->]|[-> ->]]]]; try congruence; destruct (sb_ev _ _ A') as [[-> ->]|[[-> ->]|[[-> ->]|[-> ->]]]]; try congruence; auto; try lia.
  all: destruct (H (O, i1)); split; auto; split; auto; unfold covers; lia.
Qed.
Lemma sb_com b x y : com sb b x y -> lexlt x y.
Proof. intros [H|[[]|H]]; [exact (sb_rf _ _ _ H)|]. destruct (sb_fr _ _ _ H) as [-> ->]. left. cbn. lia. Qed.
Lemma sb_one b x y : writes_b sb x b -> writes_b sb y b -> x = y.
Proof.
  intros (w & A & W & C) (w' & A' & W' & C'). unfold covers in *.
  destruct (sb_ev _ _ A) as [[-> ->]|[[-> ->]|[[-> ->]|[-> ->]]]], (sb_ev _ _ A') as [[-> ->]|[[-> ->]|[[-> ->]|[-> ->]]]]; auto; try congruence; lia.
Qed.
Lemma sb_sane : sane sb.
Proof.
  constructor.
  - intros b w r (-> & -> & C). exists u1, v2. split; [exact sb_e1|]. split; [auto|]. split; [auto|]. split; [exact sb_e4|]. split; [auto|]. split; [|auto]. unfold covers in *. lia.
  - intros b w w' r (-> & -> & C) (-> & E & C'). auto.
  - intros b r w A W C. destruct (sb_ev _ _ A) as [[-> ->]|[[-> ->]|[[-> ->]|[-> ->]]]]; try congruence.
    + right. split; [intros w (_ & E & _); discriminate E|auto].
    + left. exists (O, i1). split; auto. split; auto. unfold covers in *. lia.
  - intros b x y [].
  - intros b x y z [].
  - intros b x y A B N. destruct (N (sb_one _ _ _ A B)).
  - intros b. apply lex_no. intros x y [[P _]|C]; [exact (mp_po _ _ P)|exact (sb_com _ _ _ C)].
  - intros b r w w' _ _ [].
Qed.
Lemma sb_tlo x y : tlo T sb x y -> lexlt x y.
Proof. exact (tlo_lex T sb x y sb_sane). Qed.
Lemma sb_hbs x y : hbs T sb x y -> x = y \/ lexlt x y.
Proof. apply lex_rt. intros a b [H|[_ [k H]]]; [exact (sb_tlo _ _ H)|exact (sb_rf _ _ _ H)]. Qed.
Lemma sb_tf x y : tfence T sb x y -> lexlt x y.
Proof. intros [E (a & b & k & _ & _ & K & _)]. right. split; auto. lia. Qed.
Lemma sb_pb x y : prop_base T sb x y -> lexlt x y.
Proof.
  intros (z & H & K). apply sb_hbs in K. assert (lexlt x z) as L.
  { destruct H as [H|(k & [_ [b H]] & H')]; [exact (sb_tf _ _ H)|]. apply sb_rf in H. apply sb_tf in H'. unfold lexlt in *. lia. }
  destruct K as [<-|K]; auto. unfold lexlt in *. lia.
Qed.
Lemma sb_prop x y : prop T sb x y -> lexlt x y.
Proof.
  intros [(H & _)|(z & H & k & K & l & L & M)]; [exact (sb_pb _ _ H)|].
  assert (x = z \/ lexlt x z) as A by (revert H; apply lex_rt; intros a b [c H]; exact (sb_com _ _ _ H)).
  assert (z = k \/ lexlt z k) as B by (revert K; apply lex_rt; exact sb_pb).
  assert (lexlt k l) as C by (destruct L as [E (_ & _ & n & K1 & _)]; right; split; auto; lia).
  apply sb_hbs in M. destruct A as [<-|A], B as [<-|B], M as [<-|M]; auto; unfold lexlt in *; lia.
Qed.
Lemma sb_calls t q c r its : call_at sb t q c r its -> (t = 0 /\ q = 0 /\ c = c1 /\ r = r1 /\ its = its1)%nat \/ (t = 0 /\ q = 1 /\ c = c2 /\ r = r2 /\ its = its2)%nat
  \/ (t = 1 /\ q = 0 /\ c = c3 /\ r = r3 /\ its = its3)%nat \/ (t = 1 /\ q = 1 /\ c = c4 /\ r = r4 /\ its = its4)%nat.
Proof. intros H. unfold call_at in H. destruct t as [|[|t]], q as [|[|q]]; cbn in H; try discriminate H; try (destruct q; discriminate H); injection H as <- <- <-; auto 10. Qed.
Theorem sb_execution : execution T sb.
Proof.
  constructor; [|exact sb_sane|].
  - intros t q c r its H. destruct (sb_calls _ _ _ _ _ H) as [(-> & -> & -> & -> & ->)|[(-> & -> & -> & -> & ->)|[(-> & -> & -> & -> & ->)|(-> & -> & -> & -> & ->)]]]; auto.
  - destruct (arch_mca T).
    + unfold mca_ok. apply lex_no. intros x y [H|(_ & _ & _ & b & H)]; [exact (sb_tlo _ _ H)|exact (sb_com _ _ _ H)].
    + constructor.
      * apply lex_no. intros x y [H|[_ [k H]]]; [exact (sb_tlo _ _ H)|exact (sb_rf _ _ _ H)].
      * intros x (y & [_ [b F]] & z & P & Q). pose proof (sb_com b x y (or_intror (or_intror F))). apply sb_prop in P. apply sb_hbs in Q. destruct Q as [<-|Q]; unfold lexlt in *; lia.
      * apply lex_no. intros x y [[b []]|H]. exact (sb_prop _ _ H).
      * intros b b' x y [].
      * intros b b' x y _ F R W. destruct (sb_fr _ _ _ F) as [-> ->]. split; auto. split; auto. intros w' (_ & E & _). discriminate E.
Qed.
Theorem sb_client : total_order (eff c1 r1) = true -> total_order (eff c2 r2) = true -> total_order (eff c3 r3) = true -> total_order (eff c4 r4) = true ->
  op_cell c4 = op_cell c1 -> op_cell c3 = op_cell c2 -> disjoint (op_cell c1) (op_cell c2) -> sc_client sb.
Proof.
  intros S1 S2 S3 S4 E1 E2 D. constructor.
  - intros t q c r its H. destruct (sb_calls _ _ _ _ _ H) as [(-> & -> & -> & -> & ->)|[(-> & -> & -> & -> & ->)|[(-> & -> & -> & -> & ->)|(-> & -> & -> & -> & ->)]]]; auto.
  - intros t q its v b t' q' c r its' H. destruct t as [|[|t]], q as [|[|q]]; cbn in H; try discriminate H; destruct q; discriminate H.
  - intros t q c r its t' q' c' r' its' H H'. assert (disjoint (op_cell c2) (op_cell c1)) as D' by (clear - D; unfold disjoint in *; lia).
    destruct (sb_calls _ _ _ _ _ H) as [(-> & -> & -> & -> & ->)|[(-> & -> & -> & -> & ->)|[(-> & -> & -> & -> & ->)|(-> & -> & -> & -> & ->)]]];
    destruct (sb_calls _ _ _ _ _ H') as [(-> & -> & -> & -> & ->)|[(-> & -> & -> & -> & ->)|[(-> & -> & -> & -> & ->)|(-> & -> & -> & -> & ->)]]]; rewrite ?E1, ?E2; auto.
  - exists 2%nat. clear. intros [|[|t]] L; try lia. reflexivity.
Qed.
End SB.

(* u32 A at 0x2000, u32 B at 0x3000, both 0 at first; thread 0: A.store(7), B.load() = 0; thread 1: B.store(7), A.load() = 7; all SeqCst *)
Definition st_A := OStore 4 SeqCst 0x2000 7.
Definition ld_B := OLoad 4 SeqCst 0x3000.
Definition st_B := OStore 4 SeqCst 0x3000 7.
Definition ld_A := OLoad 4 SeqCst 0x2000.
Definition rgs (a : Z) : regs := fun r => match r with Dst | Src => a | Val => 7 | _ => 0 end.
Definition sb_of (T : arch) : graph :=
  let k1 := its_of T st_A st_os (rgs 0x2000) in let k2 := its_of T ld_B st_os (rgs 0x3000) in
  let k3 := its_of T st_B st_os (rgs 0x3000) in let k4 := its_of T ld_A (ld_os (t_e T)) (rgs 0x2000) in
  sb st_A ld_B st_B ld_A RUnit (RVal 0) RUnit (RVal 7) k1 k2 k3 k4 (hd O (evs k1 0)) (hd O (evs k4 0)) (nth_ev k1 (hd O (evs k1 0))) (fun _ => 0).
Definition sb_met (T : arch) : Prop := t_wf T /\ t_ie T = None /\ execution T (sb_of T) /\ sc_client (sb_of T) /\
  calls (g_thr (sb_of T) 0) = [(st_A, RUnit); (ld_B, RVal 0)] /\ calls (g_thr (sb_of T) 1) = [(st_B, RUnit); (ld_A, RVal 7)].
Definition ok1 (its : list item) (w : bool) (a : Z) : bool :=
  match evs its 0 with [i] => match nth_error its i with Some (IE v) => Bool.eqb (e_w v) w && (e_a v =? a) && (e_n v =? 4) | _ => false end | _ => false end.
Lemma ok1_ok its w a : ok1 its w a = true -> let i := hd O (evs its 0) in let v := nth_ev its i in only its i v /\ e_w v = w /\ e_a v = a /\ e_n v = 4.
Proof.
  unfold ok1. intros H. destruct (evs its 0) as [|i [|]] eqn:E; try discriminate H. cbn [hd]. destruct (nth_error its i) as [[v| | |]|] eqn:N; try discriminate H.
  assert (only its i (nth_ev its i)) as O by (apply only_by; [exact E|now rewrite N]). unfold nth_ev in *. rewrite N in *. apply andb_prop in H. destruct H as [H Hn]. apply andb_prop in H. destruct H as [Hw Ha].
  split; [exact O|]. split; [now apply eqb_prop|]. split; now apply Z.eqb_eq.
Qed.
Lemma sb_by T : t_wf T -> t_ie T = None ->
  call_items T st_A (its_of T st_A st_os (rgs 0x2000)) RUnit -> call_items T ld_B (its_of T ld_B st_os (rgs 0x3000)) (RVal 0) ->
  call_items T st_B (its_of T st_B st_os (rgs 0x3000)) RUnit -> call_items T ld_A (its_of T ld_A (ld_os (t_e T)) (rgs 0x2000)) (RVal 7) ->
  ok1 (its_of T st_A st_os (rgs 0x2000)) true 0x2000 = true -> ok1 (its_of T ld_B st_os (rgs 0x3000)) false 0x3000 = true ->
  ok1 (its_of T st_B st_os (rgs 0x3000)) true 0x3000 = true -> ok1 (its_of T ld_A (ld_os (t_e T)) (rgs 0x2000)) false 0x2000 = true ->
  (let k1 := its_of T st_A st_os (rgs 0x2000) in let k4 := its_of T ld_A (ld_os (t_e T)) (rgs 0x2000) in
   forall b, 0x2000 <= b < 0x2004 -> e_b (nth_ev k1 (hd O (evs k1 0))) b = e_b (nth_ev k4 (hd O (evs k4 0))) b) ->
  (let k2 := its_of T ld_B st_os (rgs 0x3000) in forall b, 0x3000 <= b < 0x3004 -> e_b (nth_ev k2 (hd O (evs k2 0))) b = 0) -> sb_met T.
Proof.
  cbv zeta. intros W Ie C1 C2 C3 C4 K1 K2 K3 K4 By1 By2. apply ok1_ok in K1, K2, K3, K4. cbv zeta in K1, K2, K3, K4.
  destruct K1 as (O1 & W1 & A1 & N1), K2 as (O2 & W2 & A2 & N2), K3 as (O3 & W3 & A3 & N3), K4 as (O4 & W4 & A4 & N4).
  split; auto. split; auto. split.
  - unfold sb_of. cbv zeta. eapply sb_execution; eauto; try (split; congruence).
    + rewrite A1, N1, A3. lia.
    + intros b Hb. apply By1. unfold covers in Hb. rewrite A1, N1 in Hb. exact Hb.
    + intros b Hb. cbv beta. apply By2. unfold covers in Hb. rewrite A2, N2 in Hb. exact Hb.
  - split; [|split; reflexivity]. unfold sb_of. cbv zeta. apply sb_client; try reflexivity. left. cbn. lia.
Qed.
Ltac item := eapply items_example; [vm_compute; repeat split; congruence|reflexivity|reflexivity|apply oracles_wf|vm_compute; repeat split; congruence|vm_compute; reflexivity].
Ltac bytes4 a := let b := fresh "b" in let H := fresh in intros b H; let K := fresh in
  assert (b = a \/ b = a + 1 \/ b = a + 2 \/ b = a + 3) as K by lia; destruct K as [->|[->|[->| ->]]]; vm_compute; reflexivity.
Ltac sb_meet := apply sb_by; [|reflexivity|item|item|item|item|vm_compute; reflexivity|vm_compute; reflexivity|vm_compute; reflexivity|vm_compute; reflexivity|cbv zeta; bytes4 0x2000|cbv zeta; bytes4 0x3000].
Example sb_riscv : sb_met (Riscv rv64).
Proof. sb_meet. right; split; [reflexivity|left; reflexivity]. Qed.
Example sb_powerpc : sb_met (Powerpc pp64).
Proof. sb_meet. right. reflexivity. Qed.
Example sb_aarch64 : sb_met (Aarch64 aa0).
Proof. sb_meet. exact Logic.I. Qed.
(* hence, by C26_interleaving: *)
Example sb_powerpc_interleaving : exists mf, interleaved (op_done (Powerpc pp64)) (fun t => calls (g_thr (sb_of (Powerpc pp64)) t)) (fun _ => 0) mf.
Proof. destruct sb_powerpc as (W & Ie & X & C & _). destruct (C26_interleaving _ _ Ie W X C) as (mf & H & _). exists mf. exact H. Qed.
