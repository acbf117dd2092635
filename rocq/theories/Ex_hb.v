(* An execution that meets the hypotheses of C37: a message handed on by a third thread, on RISC-V, PowerPC, AArch64. *)
From Verif Require Import Interleave CallLink Prop_sc Ex_graph Ex_sc Ex_mp SeqCst Prop_order Examples Prop_hb.
From Verif Require Import Arch_riscv Arch_powerpc Arch_aarch64.

(* thread 0: calls with one access each, the writes [u1], [u2]; thread 1: the read [v2] (of [u2]), the write [u3]; thread 2: the reads [v3] (of [u3]), [v1] (of [u1]). *)
Section CH.
Context (T : arch) (c1 c2 c3 c4 c5 c6 : op) (r1 r2 r3 r4 r5 r6 : rval) (its1 its2 its3 its4 its5 its6 : list item) (i1 i2 i3 i4 i5 i6 : nat) (u1 u2 v2 u3 v3 v1 : ev) (m0 : mem).
Definition ch : graph := mkgraph
  (fun t => match t with O => [Call c1 r1 its1; Call c2 r2 its2] | 1%nat => [Call c3 r3 its3; Call c4 r4 its4] | 2%nat => [Call c5 r5 its5; Call c6 r6 its6] | _ => [] end) m0
  (fun b x y => (x = (O, i1) /\ y = (2, length its5 + i6)%nat /\ covers u1 b) \/ (x = (0, length its1 + i2)%nat /\ y = (1%nat, i3) /\ covers u2 b) \/
     (x = (1, length its3 + i4)%nat /\ y = (2%nat, i5) /\ covers u3 b)) (fun _ _ _ => False).
Hypothesis (H1 : call_items T c1 its1 r1) (H2 : call_items T c2 its2 r2) (H3 : call_items T c3 its3 r3) (H4 : call_items T c4 its4 r4) (H5 : call_items T c5 its5 r5) (H6 : call_items T c6 its6 r6).
Hypothesis (O1 : only its1 i1 u1) (O2 : only its2 i2 u2) (O3 : only its3 i3 v2) (O4 : only its4 i4 u3) (O5 : only its5 i5 v3) (O6 : only its6 i6 v1).
Hypothesis (W1 : e_w u1 = true) (W2 : e_w u2 = true) (W3 : e_w v2 = false) (W4 : e_w u3 = true) (W5 : e_w v3 = false) (W6 : e_w v1 = false).
Hypothesis (Rng1 : e_a u1 = e_a v1 /\ e_n u1 = e_n v1) (Rng2 : e_a u2 = e_a v2 /\ e_n u2 = e_n v2) (Rng3 : e_a u3 = e_a v3 /\ e_n u3 = e_n v3) (Dis : e_a u1 + e_n u1 <= e_a u2 /\ e_a u2 + e_n u2 <= e_a u3) (Sz : 0 < e_n u1 /\ 0 < e_n u2 /\ 0 < e_n u3).
Hypothesis (By1 : forall b, covers u1 b -> e_b u1 b = e_b v1 b) (By2 : forall b, covers u2 b -> e_b u2 b = e_b v2 b) (By3 : forall b, covers u3 b -> e_b u3 b = e_b v3 b).

Lemma ch_0 : items ch 0 = its1 ++ its2 ++ [].
Proof. reflexivity. Qed.
Lemma ch_1 : items ch 1 = its3 ++ its4 ++ [].
Proof. reflexivity. Qed.
Lemma ch_2 : items ch 2 = its5 ++ its6 ++ [].
Proof. reflexivity. Qed.
Lemma ch_ev x w : ev_at ch x w -> (x = (O, i1) /\ w = u1) \/ (x = (0, length its1 + i2)%nat /\ w = u2) \/ (x = (1%nat, i3) /\ w = v2) \/ (x = (1, length its3 + i4)%nat /\ w = u3) \/ (x = (2%nat, i5) /\ w = v3) \/ (x = (2, length its5 + i6)%nat /\ w = v1).
Proof.
  destruct x as [t k]. unfold ev_at. cbn [fst snd]. destruct t as [|[|[|t]]].
  - rewrite ch_0. intros H. destruct (pair_ev _ _ _ _ _ _ _ _ O1 O2 H) as [[-> ->]|[-> ->]]; auto 10.
  - rewrite ch_1. intros H. destruct (pair_ev _ _ _ _ _ _ _ _ O3 O4 H) as [[-> ->]|[-> ->]]; auto 10.
  - rewrite ch_2. intros H. destruct (pair_ev _ _ _ _ _ _ _ _ O5 O6 H) as [[-> ->]|[-> ->]]; auto 10.
  - unfold at_, items, flat. cbn. destruct k; discriminate.
Qed.
Lemma ch_e1 : ev_at ch (O, i1) u1.
Proof. exact (two_1 _ _ _ _ O1). Qed.
Lemma ch_e2 : ev_at ch (0, length its1 + i2)%nat u2.
Proof. exact (pair_2 _ _ _ _ O2). Qed.
Lemma ch_e3 : ev_at ch (1%nat, i3) v2.
Proof. exact (two_1 _ _ _ _ O3). Qed.
Lemma ch_e4 : ev_at ch (1, length its3 + i4)%nat u3.
Proof. exact (pair_2 _ _ _ _ O4). Qed.
Lemma ch_e5 : ev_at ch (2%nat, i5) v3.
Proof. exact (two_1 _ _ _ _ O5). Qed.
Lemma ch_e6 : ev_at ch (2, length its5 + i6)%nat v1.
Proof. exact (pair_2 _ _ _ _ O6). Qed.
Lemma ch_rf b x y : g_rf ch b x y -> lexlt x y.
Proof. intros [(-> & -> & _)|[(-> & -> & _)|(-> & -> & _)]]; left; cbn; lia. Qed.
Lemma ch_src b r v : ev_at ch r v -> e_w v = false -> covers v b -> exists w, g_rf ch b w r.
Proof.
  intros A W C. unfold covers in *. destruct (ch_ev _ _ A) as [[-> ->]|[[-> ->]|[[-> ->]|[[-> ->]|[[-> ->]|[-> ->]]]]]]; try congruence.
  - exists (0, length its1 + i2)%nat. right. left. split; auto. split; auto. unfold covers; lia.
  - exists (1, length its3 + i4)%nat. right. right. split; auto. split; auto. unfold covers; lia.
  - exists (O, i1). left. split; auto. split; auto. unfold covers; lia.
Qed.
Lemma ch_fr b r w : ~ fr ch b r w.
Proof. intros ((v & A & W & C) & _ & H). destruct (ch_src b r v A W C) as (w' & F). exact (H w' F). Qed.
Lemma ch_com b x y : com ch b x y -> lexlt x y.
Proof. intros [H|[[]|H]]; [exact (ch_rf _ _ _ H)|]. destruct (ch_fr _ _ _ H). Qed.
Lemma ch_one b x y : writes_b ch x b -> writes_b ch y b -> x = y.
Proof.
  intros (w & A & W & C) (w' & A' & W' & C'). unfold covers in *.
  destruct (ch_ev _ _ A) as [[-> ->]|[[-> ->]|[[-> ->]|[[-> ->]|[[-> ->]|[-> ->]]]]]]; try congruence; destruct (ch_ev _ _ A') as [[-> ->]|[[-> ->]|[[-> ->]|[[-> ->]|[[-> ->]|[-> ->]]]]]]; auto; try congruence; lia.
Qed.
Lemma ch_sane : sane ch.
Proof.
  constructor.
  - intros b w r [(-> & -> & C)|[(-> & -> & C)|(-> & -> & C)]]; [exists u1, v1|exists u2, v2|exists u3, v3].
    + split; [exact ch_e1|]. split; [auto|]. split; [auto|]. split; [exact ch_e6|]. split; [auto|]. split; [|auto]. unfold covers in *. lia.
    + split; [exact ch_e2|]. split; [auto|]. split; [auto|]. split; [exact ch_e3|]. split; [auto|]. split; [|auto]. unfold covers in *. lia.
    + split; [exact ch_e4|]. split; [auto|]. split; [auto|]. split; [exact ch_e5|]. split; [auto|]. split; [|auto]. unfold covers in *. lia.
  - intros b w w' r [(-> & -> & C)|[(-> & -> & C)|(-> & -> & C)]] [(-> & E & C')|[(-> & E & C')|(-> & E & C')]]; auto; try discriminate E; unfold covers in *; lia.
  - intros b r w A W C. left. exact (ch_src b r w A W C).
  - intros b x y [].
  - intros b x y z [].
  - intros b x y A B N. destruct (N (ch_one _ _ _ A B)).
  - intros b. apply lex_no. intros x y [[P _]|C]; [exact (mp_po _ _ P)|exact (ch_com _ _ _ C)].
  - intros b r w w' _ _ [].
Qed.
Lemma ch_tlo x y : tlo T ch x y -> lexlt x y.
Proof. exact (tlo_lex T ch x y ch_sane). Qed.
Lemma ch_hbs x y : hbs T ch x y -> x = y \/ lexlt x y.
Proof. apply lex_rt. intros a b [H|[_ [k H]]]; [exact (ch_tlo _ _ H)|exact (ch_rf _ _ _ H)]. Qed.
Lemma ch_tf x y : tfence T ch x y -> lexlt x y.
Proof. intros [E (a & b & k & _ & _ & K & _)]. right. split; auto. lia. Qed.
Lemma ch_pb x y : prop_base T ch x y -> lexlt x y.
Proof.
  intros (z & H & K). apply ch_hbs in K. assert (lexlt x z) as L.
  { destruct H as [H|(k & [_ [b H]] & H')]; [exact (ch_tf _ _ H)|]. apply ch_rf in H. apply ch_tf in H'. unfold lexlt in *. lia. }
  destruct K as [<-|K]; auto. unfold lexlt in *. lia.
Qed.
Lemma ch_prop x y : prop T ch x y -> lexlt x y.
Proof.
  intros [(H & _)|(z & H & k & K & l & L & M)]; [exact (ch_pb _ _ H)|].
  assert (x = z \/ lexlt x z) as A by (revert H; apply lex_rt; intros a b [c H]; exact (ch_com _ _ _ H)).
  assert (z = k \/ lexlt z k) as B by (revert K; apply lex_rt; exact ch_pb).
  assert (lexlt k l) as C by (destruct L as [E (_ & _ & n & K1 & _)]; right; split; auto; lia).
  apply ch_hbs in M. destruct A as [<-|A], B as [<-|B], M as [<-|M]; auto; unfold lexlt in *; lia.
Qed.
Theorem ch_execution : execution T ch.
Proof.
  constructor; [|exact ch_sane|].
  - intros t q c r its H. destruct t as [|[|[|t]]], q as [|[|q]]; cbn in H; try discriminate H; try (destruct q; discriminate H); injection H as <- <- <-; auto.
  - destruct (arch_mca T).
    + unfold mca_ok. apply lex_no. intros x y [H|(_ & _ & _ & b & H)]; [exact (ch_tlo _ _ H)|exact (ch_com _ _ _ H)].
    + constructor.
      * apply lex_no. intros x y [H|[_ [k H]]]; [exact (ch_tlo _ _ H)|exact (ch_rf _ _ _ H)].
      * intros x (y & [_ [b F]] & _). destruct (ch_fr _ _ _ F).
      * apply lex_no. intros x y [[b []]|H]. exact (ch_prop _ _ H).
      * intros b b' x y [].
      * intros b b' x y _ F. destruct (ch_fr _ _ _ F).
Qed.
Lemma ch_base : base ch 0 1 = length its1 /\ base ch 1 0 = O /\ base ch 1 1 = length its3 /\ base ch 2 0 = O /\ base ch 2 1 = length its5.
Proof. unfold base, flat. cbn. rewrite !app_length. cbn. rewrite !Nat.add_0_r. auto. Qed.
Lemma only_read its i v : only its i v -> e_w v = false -> op_read its i.
Proof.
  intros [A U] W. right. split.
  - intros k (z & Z & Wz). pose proof (U _ _ Z) as ->. unfold at_ in *. congruence.
  - split; [exact (at_lt _ _ _ A)|]. split; [exists v; auto|]. intros k Hk (z & Z & _). pose proof (U _ _ Z) as Q. clear - Hk Q. lia.
Qed.
Lemma ch_syncs1 : releases (weff c2) = true -> is_store c3 = false -> acquires (eff c3 r3) = true -> syncs ch (O, 1%nat) (1%nat, O).
Proof.
  intros R N A. destruct ch_base as (B1 & B2 & B3 & B4 & B5). exists c2, r2, its2, c3, r3, its3, (0, length its1 + i2)%nat, (1%nat, i3). cbn [fst snd].
  split; [reflexivity|]. split; [exact R|]. split; [split; [reflexivity|]; exists i2; rewrite B1; split; [reflexivity|]; exists u2; split; [apply O2|exact W2]|].
  split; [reflexivity|]. split; [exact N|]. split; [exact A|]. split; [split; [reflexivity|]; exists i3; rewrite B2; split; [reflexivity|]; exact (only_read _ _ _ O3 W3)|].
  apply (sync_rf ch (e_a u2)). right. left. split; [reflexivity|]. split; [reflexivity|]. unfold covers. clear - Sz. lia.
Qed.
Lemma ch_syncs2 : releases (weff c4) = true -> is_store c5 = false -> acquires (eff c5 r5) = true -> syncs ch (1%nat, 1%nat) (2%nat, O).
Proof.
  intros R N A. destruct ch_base as (B1 & B2 & B3 & B4 & B5). exists c4, r4, its4, c5, r5, its5, (1, length its3 + i4)%nat, (2%nat, i5). cbn [fst snd].
  split; [reflexivity|]. split; [exact R|]. split; [split; [reflexivity|]; exists i4; rewrite B3; split; [reflexivity|]; exists u3; split; [apply O4|exact W4]|].
  split; [reflexivity|]. split; [exact N|]. split; [exact A|]. split; [split; [reflexivity|]; exists i5; rewrite B4; split; [reflexivity|]; exact (only_read _ _ _ O5 W5)|].
  apply (sync_rf ch (e_a u3)). right. right. split; [reflexivity|]. split; [reflexivity|]. unfold covers. clear - Sz. lia.
Qed.
Theorem ch_hb : releases (weff c2) = true -> is_store c3 = false -> acquires (eff c3 r3) = true -> releases (weff c4) = true -> is_store c5 = false -> acquires (eff c5 r5) = true ->
  happens_before ch (O, i1) (2, length its5 + i6)%nat.
Proof.
  intros R2 N3 A3 R4 N5 A5. right. exists O, 1%nat, 2%nat, O. destruct ch_base as (B1 & B2 & B3 & B4 & B5). split; [split; [reflexivity|]; rewrite B1; exact (at_lt _ _ _ (proj1 O1))|].
  split; [|split; [reflexivity|]; rewrite B5; apply Nat.le_add_r]. apply re_more with 1%nat O 1%nat; [now apply ch_syncs1|apply Nat.le_0_l|]. apply re_one. now apply ch_syncs2.
Qed.
End CH.

(* u32 A at 0x2000 (data), B at 0x3000, C at 0x4000 (flags), all 0 at first; thread 0: A.store(7, Relaxed), B.store(7, Release); thread 1: B.load(Acquire) = 7,
   C.store(7, Release); thread 2: C.load(Acquire) = 7, A.load(Relaxed) = 7 *)
Definition hst_C := OStore 4 Release 0x4000 7.
Definition hld_C := OLoad 4 Acquire 0x4000.
Definition ld4_os (e : endian) : list oracle := map (fun '(b, ok, j) => mkor (bytes b) ok j) (repeat ([(match e with LE => 0x4000 | BE => 0x4003 end, 7)], true, 0) 30).
Definition ch_of (T : arch) : graph :=
  let k1 := its_of T mst_A st_os (rgs 0x2000) in let k2 := its_of T mst_B st_os (rgs 0x3000) in
  let k3 := its_of T mld_B (ld3_os (t_e T)) (rgs 0x3000) in let k4 := its_of T hst_C st_os (rgs 0x4000) in
  let k5 := its_of T hld_C (ld4_os (t_e T)) (rgs 0x4000) in let k6 := its_of T mld_A (ld_os (t_e T)) (rgs 0x2000) in
  ch mst_A mst_B mld_B hst_C hld_C mld_A RUnit RUnit (RVal 7) RUnit (RVal 7) (RVal 7) k1 k2 k3 k4 k5 k6 (hd O (evs k1 0)) (hd O (evs k2 0)) (hd O (evs k3 0)) (hd O (evs k4 0)) (hd O (evs k5 0)) (hd O (evs k6 0))
    (nth_ev k1 (hd O (evs k1 0))) (nth_ev k2 (hd O (evs k2 0))) (nth_ev k4 (hd O (evs k4 0))) (fun _ => 0).
Definition ch_met (T : arch) : Prop := t_ie T = None /\ t_wf T /\ execution T (ch_of T) /\
  exists d e, happens_before (ch_of T) d e /\ fst d <> fst e /\ writes_b (ch_of T) d 0x2001 /\ reads_b (ch_of T) e 0x2001.
Lemma ch_by T : t_wf T -> t_ie T = None ->
  let k1 := its_of T mst_A st_os (rgs 0x2000) in let k2 := its_of T mst_B st_os (rgs 0x3000) in
  let k3 := its_of T mld_B (ld3_os (t_e T)) (rgs 0x3000) in let k4 := its_of T hst_C st_os (rgs 0x4000) in
  let k5 := its_of T hld_C (ld4_os (t_e T)) (rgs 0x4000) in let k6 := its_of T mld_A (ld_os (t_e T)) (rgs 0x2000) in
  call_items T mst_A k1 RUnit -> call_items T mst_B k2 RUnit -> call_items T mld_B k3 (RVal 7) -> call_items T hst_C k4 RUnit -> call_items T hld_C k5 (RVal 7) -> call_items T mld_A k6 (RVal 7) ->
  ok1 k1 true 0x2000 = true -> ok1 k2 true 0x3000 = true -> ok1 k3 false 0x3000 = true -> ok1 k4 true 0x4000 = true -> ok1 k5 false 0x4000 = true -> ok1 k6 false 0x2000 = true ->
  (forall b, 0x2000 <= b < 0x2004 -> e_b (nth_ev k1 (hd O (evs k1 0))) b = e_b (nth_ev k6 (hd O (evs k6 0))) b) ->
  (forall b, 0x3000 <= b < 0x3004 -> e_b (nth_ev k2 (hd O (evs k2 0))) b = e_b (nth_ev k3 (hd O (evs k3 0))) b) ->
  (forall b, 0x4000 <= b < 0x4004 -> e_b (nth_ev k4 (hd O (evs k4 0))) b = e_b (nth_ev k5 (hd O (evs k5 0))) b) -> ch_met T.
Proof.
  cbv zeta. intros W Ie C1 C2 C3 C4 C5 C6 K1 K2 K3 K4 K5 K6 By1 By2 By3. apply ok1_ok in K1, K2, K3, K4, K5, K6. cbv zeta in K1, K2, K3, K4, K5, K6.
  destruct K1 as (O1 & W1 & A1 & N1), K2 as (O2 & W2 & A2 & N2), K3 as (O3 & W3 & A3 & N3), K4 as (O4 & W4 & A4 & N4), K5 as (O5 & W5 & A5 & N5), K6 as (O6 & W6 & A6 & N6).
  split; auto. split; auto. split.
  - unfold ch_of. cbv zeta. eapply ch_execution; [exact C1|exact C2|exact C3|exact C4|exact C5|exact C6|exact O1|exact O2|exact O3|exact O4|exact O5|exact O6|exact W1|exact W2|exact W3|exact W4|exact W5|exact W6|split; congruence|split; congruence|split; congruence|rewrite A1, N1, A2, N2, A4; lia|rewrite N1, N2, N4; lia| | |].
    + intros b Hb. apply By1. unfold covers in Hb. rewrite A1, N1 in Hb. exact Hb.
    + intros b Hb. apply By2. unfold covers in Hb. rewrite A2, N2 in Hb. exact Hb.
    + intros b Hb. apply By3. unfold covers in Hb. rewrite A4, N4 in Hb. exact Hb.
  - do 2 eexists. split; [unfold ch_of; cbv zeta; eapply ch_hb; eauto; try reflexivity; rewrite ?N1, ?N2, ?N4; lia|]. split; [discriminate|]. split; eexists.
    + split; [unfold ch_of; cbv zeta; eapply ch_e1; eauto|]. split; [exact W1|]. unfold covers. rewrite A1, N1. lia.
    + split; [unfold ch_of; cbv zeta; eapply ch_e6; eauto|]. split; [exact W6|]. unfold covers. rewrite A6, N6. lia.
Qed.
Ltac ch_meet := apply ch_by; [|reflexivity|item|item|item|item|item|item|vm_compute; reflexivity|vm_compute; reflexivity|vm_compute; reflexivity|vm_compute; reflexivity|vm_compute; reflexivity|vm_compute; reflexivity|bytes4 0x2000|bytes4 0x3000|bytes4 0x4000].
Example ch_riscv : ch_met (Riscv rv64).
Proof. ch_meet. right; split; [reflexivity|left; reflexivity]. Qed.
Example ch_powerpc : ch_met (Powerpc pp64).
Proof. ch_meet. right. reflexivity. Qed.
Example ch_aarch64 : ch_met (Aarch64 aa0).
Proof. ch_meet. exact Logic.I. Qed.
