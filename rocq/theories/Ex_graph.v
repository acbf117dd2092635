(* Executions that meet the hypotheses of C24 - C28: message passing on a RISC-V, a PowerPC and an AArch64 machine. *)
From Verif Require Import SeqCst Prop_order Examples.
From Verif Require Import Arch_riscv Arch_powerpc Arch_aarch64.

Definition only (its : list item) (i : nat) (v : ev) : Prop := at_ its i v /\ forall j u, at_ its j u -> j = i.
Definition lexlt (x y : eid) : Prop := (fst x < fst y)%nat \/ (fst x = fst y /\ (snd x < snd y)%nat).
Lemma lex_ct (R : eid -> eid -> Prop) : (forall x y, R x y -> lexlt x y) -> forall x y, clos_trans _ R x y -> lexlt x y.
Proof. intros H x y K. induction K; [auto|]. unfold lexlt in *. lia. Qed.
Lemma lex_rt (R : eid -> eid -> Prop) : (forall x y, R x y -> lexlt x y) -> forall x y, clos_refl_trans _ R x y -> x = y \/ lexlt x y.
Proof. intros H x y K. induction K as [x y K|x|x y z _ [->|A] _ [->|B]]; auto. right. unfold lexlt in *. lia. Qed.
Lemma lex_no (R : eid -> eid -> Prop) : (forall x y, R x y -> lexlt x y) -> forall x, ~ clos_trans _ R x x.
Proof. intros H x K. pose proof (lex_ct _ H _ _ K). unfold lexlt in *. lia. Qed.
Lemma lo_lt M L i j : lo M L i j -> (i < j)%nat.
Proof.
  intros [v w|v w|v w|v w|(v & w & k & _ & _ & ? & _)|(_ & k & m & f & ? & (_ & ? & _) & _)|(w & _ & _ & _ & ? & _)]; auto; lia.
Qed.

Lemma co_int_po G b x y : sane G -> com G b x y -> fst x = fst y -> po x y.
Proof.
  intros Sa H F. destruct (lt_eq_lt_dec (snd x) (snd y)) as [[L|L]|L]; [split; auto| |].
  - exfalso. assert (x = y) as -> by (destruct x, y; cbn in *; now subst). apply (coherent _ Sa b y). apply ct1. auto.
  - exfalso. assert (acc_b G x b /\ acc_b G y b) as [A B].
    { assert (forall z, writes_b G z b -> acc_b G z b) as HW by (intros z (v & A & _ & C); exists v; auto).
      assert (forall z, reads_b G z b -> acc_b G z b) as HR by (intros z (v & A & _ & C); exists v; auto).
      destruct H as [H|[H|(R & W & _)]]; [|destruct (co_wf _ Sa _ _ _ H); auto|auto].
      destruct (rf_wf _ Sa _ _ _ H) as (v & u & A & _ & C & A' & _ & C' & _). split; eexists; eauto. }
    apply (coherent _ Sa b x). apply t_trans with y; apply ct1; [auto|left; split; [split; auto|auto]].
Qed.
Lemma loc_po G x y : sane G -> fst x = fst y -> loc_lo G x y -> po x y.
Proof.
  intros Sa F H. assert (forall a b, clos_trans _ (coi G) a b -> po a b) as K.
  { intros a b Q. induction Q as [a b [E (k & C)]|a b c _ [F1 L1] _ [F2 L2]]; [|split; [congruence|lia]]. apply (co_int_po G k); auto. right. left. exact C. }
  destruct H as [w u v [E L] _ _ _ _ Q|w [E (z & _ & _ & _ & L & _)] Q|b r v _ R _ _].
  - destruct (K _ _ Q). split; [congruence|lia].
  - destruct (K _ _ Q). split; [congruence|lia].
  - apply (co_int_po G b); auto. left. exact R.
Qed.
Lemma tlo_lex T G x y : sane G -> tlo T G x y -> lexlt x y.
Proof. intros Sa [E [H|H]]; right; [split; [exact E|exact (lo_lt _ _ _ _ H)]|exact (loc_po G x y Sa E H)]. Qed.

(* thread 0: plain write [d]; call [c1] with one access, the write [u].  Thread 1: call [c2] with one access, the read [v]; plain read [e]. *)
Section MP.
Context (T : arch) (c1 c2 : op) (r1 r2 : rval) (its1 its2 : list item) (i1 i2 : nat) (d u v e : ev) (m0 : mem).
Definition mp : graph := mkgraph
  (fun t => match t with O => [Code [IE d]; Call c1 r1 its1] | S O => [Call c2 r2 its2; Code [IE e]] | _ => [] end) m0
  (fun b x y => (x = (0, 0)%nat /\ y = (1%nat, length its2) /\ covers d b) \/ (x = (O, S i1) /\ y = (1%nat, i2) /\ covers u b))
  (fun _ _ _ => False).
Hypothesis (Hc1 : call_items T c1 its1 r1) (Hc2 : call_items T c2 its2 r2).
Hypothesis (O1 : only its1 i1 u) (O2 : only its2 i2 v) (Wd : e_w d = true) (Wu : e_w u = true) (Wv : e_w v = false) (We : e_w e = false).
Hypothesis (Rng1 : e_a d = e_a e /\ e_n d = e_n e) (Rng2 : e_a u = e_a v /\ e_n u = e_n v) (Dis : e_a d + e_n d <= e_a u).
Hypothesis (By1 : forall b, covers d b -> e_b d b = e_b e b) (By2 : forall b, covers u b -> e_b u b = e_b v b).

Lemma mp0 : items mp 0 = IE d :: its1 ++ [].
Proof. reflexivity. Qed.
Lemma mp1 : items mp 1 = its2 ++ [IE e] ++ [].
Proof. reflexivity. Qed.
Lemma mp_ev x w : ev_at mp x w -> (x = (0, 0)%nat /\ w = d) \/ (x = (O, S i1) /\ w = u) \/ (x = (1%nat, i2) /\ w = v) \/ (x = (1%nat, length its2) /\ w = e).
Proof.
  destruct x as [t k]. unfold ev_at, at_. cbn [fst snd]. destruct t as [|[|t]].
  - rewrite mp0, app_nil_r. destruct k as [|k]; cbn [nth_error]; [intros H; injection H as <-; auto|]. intros H. destruct O1 as [A B]. pose proof (B _ _ H) as ->. unfold at_ in A. rewrite A in H. injection H as <-. auto.
  - rewrite mp1, app_nil_r. intros H. destruct (Nat.lt_ge_cases k (length its2)) as [L|L].
    + rewrite nth_error_app1 in H by auto. destruct O2 as [A B]. pose proof (B _ _ H) as ->. unfold at_ in A. rewrite A in H. injection H as <-. auto.
    + rewrite nth_error_app2 in H by auto. destruct (k - length its2)%nat as [|n] eqn:E; cbn in H; [|destruct n; discriminate H]. injection H as <-. 
      replace k with (length its2) by lia. auto.
  - unfold items, flat. cbn. destruct k; discriminate.
Qed.
Lemma mp_D : ev_at mp (0, 0)%nat d.
Proof. reflexivity. Qed.
Lemma mp_W : ev_at mp (O, S i1) u.
Proof. unfold ev_at, at_. cbn [fst snd]. rewrite mp0, app_nil_r. apply O1. Qed.
Lemma mp_R : ev_at mp (1%nat, i2) v.
Proof. unfold ev_at, at_. cbn [fst snd]. rewrite mp1, app_nil_r, nth_error_app1; [apply O2|]. destruct O2 as [A _]. exact (at_lt _ _ _ A). Qed.
Lemma mp_E : ev_at mp (1%nat, length its2) e.
Proof. unfold ev_at, at_. cbn [fst snd]. rewrite mp1, app_nil_r, nth_error_app2 by auto. now rewrite Nat.sub_diag. Qed.
Lemma mp_rf b x y : g_rf mp b x y -> lexlt x y.
Proof. intros [(-> & -> & _)|(-> & -> & _)]; left; cbn; lia. Qed.
Lemma mp_src r b : reads_b mp r b -> exists w, g_rf mp b w r.
Proof.
  intros (w & A & W & C). unfold covers in C. destruct (mp_ev _ _ A) as [[-> ->]|[[-> ->]|[[-> ->]|[-> ->]]]]; try congruence.
  - exists (O, S i1). right. split; auto. split; auto. unfold covers. lia.
  - exists (0, 0)%nat. left. split; auto. split; auto. unfold covers. lia.
Qed.
Lemma mp_fr b r w : ~ fr mp b r w.
Proof. intros (R & _ & H). destruct (mp_src _ _ R) as [w' F]. exact (H w' F). Qed.
Lemma mp_com b x y : com mp b x y -> lexlt x y.
Proof. intros [H|[[]|H]]; [exact (mp_rf _ _ _ H)|destruct (mp_fr _ _ _ H)]. Qed.
Lemma mp_po x y : po x y -> lexlt x y.
Proof. intros [E H]. right. auto. Qed.
Lemma mp_one b x y : writes_b mp x b -> writes_b mp y b -> x = y.
Proof.
  intros (w & A & W & C) (w' & A' & W' & C'). unfold covers in *.
  destruct (mp_ev _ _ A) as [[-> ->]|[[-> ->]|[[-> ->]|[-> ->]]]], (mp_ev _ _ A') as [[-> ->]|[[-> ->]|[[-> ->]|[-> ->]]]]; auto; try congruence; lia.
Qed.
Lemma mp_sane : sane mp.
Proof.
  constructor.
  - intros b w r [(-> & -> & C)|(-> & -> & C)].
    + exists d, e. repeat split; auto; try apply mp_E; try apply C; unfold covers in *; lia.
    + exists u, v. repeat split; auto; try apply mp_W; try apply mp_R; try apply C; unfold covers in *; lia.
  - intros b w w' r [(-> & -> & C)|(-> & -> & C)] [(-> & E & C')|(-> & E & C')]; auto; exfalso; unfold covers in *; lia.
  - intros b r w A W C. left. apply mp_src. exists w. auto.
  - intros b x y [].
  - intros b x y z [].
  - intros b x y A B N. destruct (N (mp_one _ _ _ A B)).
  - intros b. apply lex_no. intros x y [[P _]|C]; [exact (mp_po _ _ P)|exact (mp_com _ _ _ C)].
  - intros b r w w' _ F. destruct (mp_fr _ _ _ F).
Qed.
Lemma mp_tlo x y : tlo T mp x y -> lexlt x y.
Proof. exact (tlo_lex T mp x y mp_sane). Qed.
Lemma mp_hbs x y : hbs T mp x y -> x = y \/ lexlt x y.
Proof. apply lex_rt. intros a b [H|[_ [k H]]]; [exact (mp_tlo _ _ H)|exact (mp_rf _ _ _ H)]. Qed.
Lemma mp_tf x y : tfence T mp x y -> lexlt x y.
Proof. intros [E (a & b & k & _ & _ & K & _)]. right. split; auto. lia. Qed.
Lemma mp_pb x y : prop_base T mp x y -> lexlt x y.
Proof.
  intros (z & H & K). apply mp_hbs in K. assert (lexlt x z) as L.
  { destruct H as [H|(k & [_ [b H]] & H')]; [exact (mp_tf _ _ H)|]. apply mp_rf in H. apply mp_tf in H'. unfold lexlt in *. lia. }
  destruct K as [<-|K]; auto. unfold lexlt in *. lia.
Qed.
Lemma mp_prop x y : prop T mp x y -> lexlt x y.
Proof.
  intros [(H & _)|(z & H & k & K & l & L & M)]; [exact (mp_pb _ _ H)|].
  assert (x = z \/ lexlt x z) as A by (revert H; apply lex_rt; intros a b [c H]; exact (mp_com _ _ _ H)).
  assert (z = k \/ lexlt z k) as B by (revert K; apply lex_rt; exact mp_pb).
  assert (lexlt k l) as C by (destruct L as [E (_ & _ & n & K1 & _)]; right; split; auto; lia).
  apply mp_hbs in M. destruct A as [<-|A], B as [<-|B], M as [<-|M]; auto; unfold lexlt in *; lia.
Qed.
Theorem mp_execution : execution T mp.
Proof.
  constructor; [|exact mp_sane|].
  - intros t q c r its H. destruct t as [|[|t]], q as [|[|q]]; cbn in H; try discriminate H; try (destruct q; discriminate H); injection H as <- <- <-; auto.
  - destruct (arch_mca T).
    + unfold mca_ok. apply lex_no. intros x y [H|(_ & _ & _ & b & H)]; [exact (mp_tlo _ _ H)|exact (mp_com _ _ _ H)].
    + constructor.
      * apply lex_no. intros x y [H|[_ [k H]]]; [exact (mp_tlo _ _ H)|exact (mp_rf _ _ _ H)].
      * intros x (y & [_ [b F]] & _). destruct (mp_fr _ _ _ F).
      * apply lex_no. intros x y [[b []]|H]. exact (mp_prop _ _ H).
      * intros b b' x y [].
      * intros b b' x y _ F. destruct (mp_fr _ _ _ F).
Qed.
Hypothesis (P1 : e_n u > 0) (Td : e_t e = false).
Lemma only_or : op_read its2 i2.
Proof.
  destruct O2 as [A B]. right. split.
  - intros k (w & K & W). pose proof (B _ _ K) as ->. unfold at_ in *. congruence.
  - split; [exact (at_lt _ _ _ A)|]. split; [exists v; auto|]. intros m L (w & K & W). pose proof (B _ _ K). lia.
Qed.
Theorem mp_publish : releases (weff c1) = true -> is_store c2 = false -> acquires (eff c2 r2) = true ->
  publish mp 0 1 c1 r1 its1 1 0 c2 r2 its2 (O, S i1) (1%nat, i2) (0, 0)%nat (1%nat, length its2).
Proof.
  intros R N A. repeat split; auto.
  - exists i1. split; [reflexivity|]. exists u. split; auto. apply O1.
  - exists i2. split; [reflexivity|exact only_or].
  - cbn. rewrite app_nil_r. auto.
  - apply (sync_rf mp (e_a u)). right. repeat split; auto; lia.
  - exists d. split; [reflexivity|auto].
  - exists e. split; [exact mp_E|auto].
Qed.
Theorem mp_sc_access : is_store c2 = false -> total_order (eff c1 r1) = true -> total_order (eff c2 r2) = true ->
  sc_access mp (O, S i1) 0 1 c1 /\ sc_access mp (1%nat, i2) 1 0 c2.
Proof.
  intros N A1 A2. split.
  - exists r1, its1. split; [reflexivity|]. split; auto. right. split; auto. exists i1. split; [reflexivity|].
    destruct O1 as [A B]. split; [exact (at_lt _ _ _ A)|]. split; [exists u; auto|]. intros m L (w & K & W). pose proof (B _ _ K). lia.
  - exists r2, its2. split; [reflexivity|]. split; auto. left. split; auto. split; auto. exists i2. split; [reflexivity|exact only_or].
Qed.
End MP.

(* ---- concrete calls ---- *)
Definition its_of (T : arch) (c : op) (os : list oracle) (g : regs) : list item :=
  match op_impl T c with
  | Impl f => match irun (arch_mm T) (t_e T) (f_prog f) os (mkst O g None) tn0 with Some (l, _) => l | None => [] end
  | _ => [] end.
Lemma items_example T c f os g r : op_args T c -> op_pre T c = Ret tt -> op_impl T c = Impl f -> wf_oracles os -> f_in f g ->
  match irun (arch_mm T) (t_e T) (f_prog f) os (mkst O g None) tn0 with
  | Some (_, sf) => Nat.eqb (pc sf) (length (f_prog f)) && match f_out f (rf sf) with Some r' => rval_eqb r' r | None => false end
  | None => false end = true -> call_items T c (its_of T c os g) r.
Proof.
  intros A P I W Hi H. unfold its_of. rewrite I. destruct (irun _ _ _ _ _ _) as [[l sf]|] eqn:R; [|discriminate]. apply andb_prop in H. destruct H as [X O].
  apply Nat.eqb_eq in X. destruct (f_out f (rf sf)) as [r'|] eqn:O'; [|discriminate]. apply rval_eqb_eq in O. subst r'.
  eapply ci with (s0 := mkst O g None); eauto.
Qed.
Definition ev0 : ev := mkev false 0 0 (fun _ => 0) plain false false.
Definition nth_ev (its : list item) (i : nat) : ev := match nth_error its i with Some (IE v) => v | _ => ev0 end.
Fixpoint evs (its : list item) (k : nat) : list nat := match its with [] => [] | IE _ :: l => k :: evs l (S k) | _ :: l => evs l (S k) end.
Lemma evs_in its : forall k j u, at_ its j u -> In (k + j)%nat (evs its k).
Proof.
  induction its as [|x its IH]; intros k j u H; [destruct j; discriminate H|]. unfold at_ in H. destruct j as [|j]; cbn in H.
  - injection H as ->. cbn. left. lia.
  - specialize (IH (S k) j u H). replace (k + S j)%nat with (S k + j)%nat by lia. destruct x; cbn [evs]; auto. right. auto.
Qed.
Lemma only_by its i : evs its 0 = [i] -> (match nth_error its i with Some (IE _) => true | _ => false end) = true -> only its i (nth_ev its i).
Proof.
  intros E H. split.
  - unfold at_, nth_ev. destruct (nth_error its i) as [[]|]; try discriminate H. reflexivity.
  - intros j u A. pose proof (evs_in _ 0 _ _ A) as I. rewrite E in I. destruct I as [I|[]]. cbn in I. auto.
Qed.
(* u32 at 0x2000 written / read with SeqCst; data u32 = 0x2a2a2a2a at 0x1000 *)
Definition st_c := OStore 4 SeqCst 0x2000 7.
Definition ld_c := OLoad 4 SeqCst 0x2000.
Definition st_os : list oracle := map (fun '(b, ok, j) => mkor (bytes b) ok j) (repeat ([(0x2000, 0)], true, 0) 30).
Definition mg : regs := fun r => match r with Dst | Src => 0x2000 | Val => 7 | _ => 0 end.
Definition mem7 (e : endian) : list (Z * Z) := [(match e with LE => 0x2000 | BE => 0x2003 end, 7)].
Definition ld_os (e : endian) : list oracle := map (fun '(b, ok, j) => mkor (bytes b) ok j) (repeat (mem7 e, true, 0) 30).
Definition data (w : bool) : ev := mkev w 0x1000 4 (fun _ => 0x2a) plain false false.
Definition mp_of (T : arch) : graph :=
  mp st_c ld_c RUnit (RVal 7) (its_of T st_c st_os mg) (its_of T ld_c (ld_os (t_e T)) mg) (hd O (evs (its_of T st_c st_os mg) 0)) (hd O (evs (its_of T ld_c (ld_os (t_e T)) mg) 0))
    (data true) (nth_ev (its_of T st_c st_os mg) (hd O (evs (its_of T st_c st_os mg) 0))) (data false) (fun _ => 0).
Ltac four b H := let K := fresh in assert (b = 0x2000 \/ b = 0x2001 \/ b = 0x2002 \/ b = 0x2003) as K by (change (0x2000 <= b < 0x2004) in H; lia); destruct K as [->|[->|[->| ->]]]; vm_compute; reflexivity.
Definition met (T : arch) : Prop := t_wf T /\ execution T (mp_of T) /\
  (exists t1 q1 c1 r1 its1 t2 q2 c2 r2 its2 w r d e, publish (mp_of T) t1 q1 c1 r1 its1 t2 q2 c2 r2 its2 w r d e /\ writes_b (mp_of T) d 0x1002 /\ reads_b (mp_of T) e 0x1002) /\
  (exists w r, sc_access (mp_of T) w 0 1 st_c /\ sc_access (mp_of T) r 1 0 ld_c /\ sc_before (mp_of T) w r).
Lemma met_by T i1 i2 : t_wf T -> call_items T st_c (its_of T st_c st_os mg) RUnit -> call_items T ld_c (its_of T ld_c (ld_os (t_e T)) mg) (RVal 7) ->
  hd O (evs (its_of T st_c st_os mg) 0) = i1 -> hd O (evs (its_of T ld_c (ld_os (t_e T)) mg) 0) = i2 ->
  only (its_of T st_c st_os mg) i1 (nth_ev (its_of T st_c st_os mg) i1) -> only (its_of T ld_c (ld_os (t_e T)) mg) i2 (nth_ev (its_of T ld_c (ld_os (t_e T)) mg) i2) ->
  (let u := nth_ev (its_of T st_c st_os mg) i1 in let v := nth_ev (its_of T ld_c (ld_os (t_e T)) mg) i2 in
   e_w u = true /\ e_w v = false /\ e_a u = 0x2000 /\ e_a v = 0x2000 /\ e_n u = 4 /\ e_n v = 4 /\ forall b, covers u b -> e_b u b = e_b v b) -> met T.
Proof.
  cbv zeta. intros W C1 C2 E1 E2 O1 O2 (Wu & Wv & Au & Av & Nu & Nv & By). unfold met, mp_of. rewrite E1, E2.
  assert (execution T (mp st_c ld_c RUnit (RVal 7) (its_of T st_c st_os mg) (its_of T ld_c (ld_os (t_e T)) mg) i1 i2 (data true) (nth_ev (its_of T st_c st_os mg) i1) (data false) (fun _ => 0))) as X.
  { eapply mp_execution; eauto; cbn [data e_a e_n]; rewrite ?Au, ?Av, ?Nu, ?Nv; auto; lia. }
  split; auto. split; auto. split.
  - do 14 eexists. split.
    + eapply mp_publish; eauto; try reflexivity; lia.
    + split; [exists (data true)|exists (data false)]; (split; [|split; [reflexivity|vm_compute; split; congruence]]); [reflexivity|]. eapply mp_E.
  - exists (O, S i1), (1%nat, i2). match goal with |- sc_access ?G _ _ _ _ /\ _ => assert (sc_access G (O, S i1) 0 1 st_c /\ sc_access G (1%nat, i2) 1 0 ld_c) as [A B] by (eapply mp_sc_access; eauto) end. split; [exact A|]. split; [exact B|].
    exists O, 1%nat, st_c, 1%nat, O, ld_c. split; auto. split; auto. right. split; auto. exists 0x2001. split; [vm_compute; split; congruence|].
    right. right. left. apply p_one. right. split; auto. split; auto. unfold covers. lia.
Qed.
Ltac meet u v := apply met_by with (i1 := u) (i2 := v);
  [|eapply items_example; [vm_compute; repeat split; congruence|reflexivity|reflexivity|apply oracles_wf|vm_compute; repeat split; congruence|vm_compute; reflexivity]
   |eapply items_example; [vm_compute; repeat split; congruence|reflexivity|reflexivity|apply oracles_wf|vm_compute; repeat split; congruence|vm_compute; reflexivity]
   |reflexivity|reflexivity|apply only_by; reflexivity|apply only_by; reflexivity
   |cbv zeta; repeat (split; [reflexivity|]); let b := fresh "b" in let H := fresh in intros b H; four b H].
Example mp_riscv : met (Riscv rv64).
Proof. meet 1%nat 1%nat. right; split; [reflexivity|left; reflexivity]. Qed.
Definition pp64 := {| pp_w := 64; pp_part := true; pp_quad := true; pp_e := BE |}.
Example mp_powerpc : met (Powerpc pp64).
Proof. meet 1%nat 1%nat. right. reflexivity. Qed.
(* hence, by C28: *)
Example mp_powerpc_message : exists d e w, writes_b (mp_of (Powerpc pp64)) d 0x1002 /\ g_rf (mp_of (Powerpc pp64)) 0x1002 w e /\ (w = d \/ g_co (mp_of (Powerpc pp64)) 0x1002 d w).
Proof.
  destruct mp_powerpc as (_ & X & (t1 & q1 & c1 & r1 & its1 & t2 & q2 & c2 & r2 & its2 & w & r & d & e & P & W & R) & _).
  destruct (C28_write_read _ _ X _ _ _ _ _ _ _ _ _ _ _ _ _ _ _ P W R) as (w' & F & O). exists d, e, w'. auto.
Qed.
Definition aa0 := {| aa_e := LE; aa_msvc := false; aa_lse := true; aa_lse2 := false; aa_lse128 := false; aa_rcpc := true; aa_rcpc3 := false |}.
Example mp_aarch64 : met (Aarch64 aa0).
Proof. meet 0%nat 0%nat. exact I. Qed.
