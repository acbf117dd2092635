(* C41: what an execution would have done without one access [d] and all that depends on it.  Proof machinery. *)
From Verif Require Import SeqCst Prop_order Replay Prop_sc CallLink All_atomic Prop_mp Prop_hb Merge Prop_drf Prop_drfsc.
From Coq Require Import Permutation Sorted Relations.Operators_Properties.

Lemma reaches_trans G p1 t q q' p2 : sc_reaches G p1 (t, q) -> (q <= q')%nat -> sc_reaches G (t, q') p2 -> sc_reaches G p1 p2.
Proof.
  intros R Lq R2. remember (t, q) as p eqn:E. revert t q E Lq R2. induction R as [p1 p H|p1 t0 q0 q0' p H L R IH]; intros t q -> Lq R2; [exact (sr_more G p1 t q q' p2 H Lq R2)|].
  apply (sr_more G p1 t0 q0 q0' p2 H L). exact (IH t q eq_refl Lq R2).
Qed.

(* ---- marking ---- *)
Section M.
Context (d : eid).
Definition isd (u : unit) : bool := match u with UM x => if eid_dec (fst x) d then true else false | _ => false end.
Definition coversb (v : ev) (b : Z) : bool := (e_a v <=? b) && (b <? e_a v + e_n v).
Lemma coversb_spec v b : coversb v b = true <-> covers v b.
Proof. unfold coversb, covers. rewrite andb_true_iff, Z.leb_le, Z.ltb_lt. tauto. Qed.
Definition overl (v v' : ev) : bool := let b := Z.max (e_a v) (e_a v') in coversb v b && coversb v' b.
Lemma overl_spec v v' : overl v v' = true <-> exists b, covers v b /\ covers v' b.
Proof.
  unfold overl. rewrite andb_true_iff, !coversb_spec. split; [eauto|]. intros (b & A & B). unfold covers in *. lia.
Qed.
Definition clash (p u : unit) : bool := match p, u with UM x, UM y => overl (snd x) (snd y) && (e_w (snd x) || e_w (snd y)) | _, _ => false end.
Definition same_cell (n n' : node) : bool := if cell_dec (cellof n) (cellof n') then true else false.
Fixpoint lastw (n : node) (M : list (unit * bool)) : bool :=
  match M with
  | [] => false
  | (UC n', k) :: M' => if k_w n' && same_cell n' n then k else lastw n M'
  | _ :: M' => lastw n M'
  end.
Definition hit (M : list (unit * bool)) (u : unit) : bool :=
  existsb (fun p => snd p && (Nat.eqb (u_thr (fst p)) (u_thr u) || clash (fst p) u)) M || match u with UC n => negb (is_store (k_c n)) && lastw n M | UM _ => false end.
Fixpoint mk (r : list unit) : list (unit * bool) := match r with [] => [] | u :: r' => (u, isd u || hit (mk r') u) :: mk r' end.
Definition marked (r : list unit) (u : unit) : bool := isd u || hit (mk r) u.
Fixpoint krev (r : list unit) : list unit := match r with [] => [] | u :: r' => if marked r' u then krev r' else u :: krev r' end.
Definition kp (P : list unit) : list unit := rev (krev (rev P)).
Lemma kp_snoc P u : kp (P ++ [u]) = if marked (rev P) u then kp P else kp P ++ [u].
Proof. unfold kp. rewrite rev_unit. cbn [krev]. destruct (marked (rev P) u); reflexivity. Qed.
Lemma mk_snoc P u : mk (rev (P ++ [u])) = (u, marked (rev P) u) :: mk (rev P).
Proof. rewrite rev_unit. reflexivity. Qed.
Lemma mk_fst r : map fst (mk r) = r.
Proof. induction r as [|u r IH]; [reflexivity|]. cbn. now rewrite IH. Qed.
Lemma krev_split r : forall A u B, krev r = A ++ u :: B -> exists r1 r2, r = r1 ++ u :: r2 /\ B = krev r2 /\ marked r2 u = false.
Proof.
  induction r as [|v r IH]; intros A u B E; [destruct A; discriminate E|]. cbn [krev] in E. destruct (marked r v) eqn:Mv.
  - destruct (IH _ _ _ E) as (r1 & r2 & -> & H). exists (v :: r1), r2. auto.
  - destruct A as [|a A]; [injection E as -> <-; exists [], r; auto|]. injection E as -> E. destruct (IH _ _ _ E) as (r1 & r2 & -> & H). exists (a :: r1), r2. auto.
Qed.
Lemma kp_split S P' u Q' : kp S = P' ++ u :: Q' -> exists P Q, S = P ++ u :: Q /\ P' = kp P /\ marked (rev P) u = false.
Proof.
  unfold kp. intros E. apply (f_equal (@rev _)) in E. rewrite rev_involutive, rev_app_distr in E. cbn [rev] in E. rewrite <- app_assoc in E. destruct (krev_split _ _ _ _ E) as (r1 & r2 & E1 & E2 & H).
  exists (rev r2), (rev r1). rewrite rev_involutive. split; [|split; [|exact H]].
  - apply (f_equal (@rev _)) in E1. rewrite rev_involutive, rev_app_distr in E1. cbn [rev] in E1. now rewrite <- app_assoc in E1.
  - now rewrite <- E2, rev_involutive.
Qed.
(* a marked unit of the list *)
Lemma mk_in P p : In (p, true) (mk (rev P)) -> exists P1 P2, P = P1 ++ p :: P2 /\ marked (rev P1) p = true.
Proof.
  induction P as [|u P IH] using rev_ind; [intros []|]. rewrite mk_snoc. intros [E|I].
  - injection E as -> E. exists P, []. auto.
  - destruct (IH I) as (P1 & P2 & -> & H). exists P1, (P2 ++ [u]). split; [now rewrite <- app_assoc|exact H].
Qed.
Lemma in_mk P p P2 : marked (rev P) p = true -> In (p, true) (mk (rev (P ++ p :: P2))).
Proof.
  intros H. induction P2 as [|u P2 IH] using rev_ind.
  - rewrite mk_snoc. left. now rewrite H.
  - replace (P ++ p :: P2 ++ [u]) with ((P ++ p :: P2) ++ [u]) by now rewrite <- app_assoc. rewrite mk_snoc. now right.
Qed.
Lemma lastw_in n M : lastw n M = true -> exists n', In (UC n', true) M.
Proof. induction M as [|[[n'|x] k] M IH]; cbn; [discriminate| |]; [destruct (k_w n' && same_cell n' n); [intros ->; eauto|]|]; intros H; destruct (IH H) as (n0 & I); eauto. Qed.
Lemma mk_none P : (forall u, In u P -> isd u = false) -> forall p, ~ In (p, true) (mk (rev P)).
Proof.
  induction P as [|u P IH] using rev_ind; intros H p; [intros []|]. assert (forall p, ~ In (p, true) (mk (rev P))) as K by (apply IH; intros v I; apply H, in_or_app; now left).
  rewrite mk_snoc. intros [E|I]; [|exact (K p I)]. injection E as -> E. unfold marked in E. rewrite (H p) in E by (apply in_or_app; right; now left). cbn [orb] in E. unfold hit in E. apply orb_prop in E. destruct E as [E|E].
  - apply existsb_exists in E. destruct E as ((v & [|]) & I & Q); [exact (K v I)|discriminate Q].
  - destruct p as [n|x]; [|discriminate E]. apply andb_prop in E. destruct E as [_ E]. destruct (lastw_in _ _ E) as (n' & I). exact (K _ I).
Qed.
Lemma kp_all P : (forall p, ~ In (p, true) (mk (rev P))) -> kp P = P.
Proof.
  induction P as [|u P IH] using rev_ind; intros H; [reflexivity|]. rewrite kp_snoc. destruct (marked (rev P) u) eqn:M; [exfalso; apply (H u); rewrite mk_snoc, M; now left|].
  f_equal. apply IH. intros p I. apply (H p). rewrite mk_snoc. now right.
Qed.
Lemma mark_thr P p u : In (p, true) (mk (rev P)) -> u_thr p = u_thr u -> marked (rev P) u = true.
Proof.
  intros I E. unfold marked, hit. apply orb_true_iff. right. apply orb_true_iff. left. apply existsb_exists. exists (p, true). split; [exact I|]. cbn. rewrite E, Nat.eqb_refl. reflexivity.
Qed.
Notation ft t := (filter (of_thr u_thr t)).
Lemma ft_one t u : ft t [u] = if Nat.eqb (u_thr u) t then [u] else [].
Proof. reflexivity. Qed.
Lemma kp_thr P t : (exists h, ft t P = ft t (kp P) ++ h) /\ ((forall p, In (p, true) (mk (rev P)) -> u_thr p <> t) -> ft t P = ft t (kp P)).
Proof.
  induction P as [|u P [(h & E) IH]] using rev_ind; [split; [now exists []|reflexivity]|]. rewrite kp_snoc, mk_snoc, filter_app, ft_one. destruct (marked (rev P) u) eqn:M.
  - split; [exists (h ++ if Nat.eqb (u_thr u) t then [u] else []); now rewrite app_assoc, <- E|]. intros H. rewrite (proj2 (Nat.eqb_neq _ _)) by (apply H; now left). rewrite app_nil_r. apply IH. intros p I. apply H. now right.
  - rewrite filter_app, ft_one. destruct (Nat.eqb_spec (u_thr u) t) as [Et|Nt].
    + assert (ft t P = ft t (kp P)) as E' by (apply IH; intros p I Ep; rewrite (mark_thr P p u I) in M; [discriminate M|congruence]). rewrite E'. split; [exists []; now rewrite app_nil_r|reflexivity].
    + rewrite !app_nil_r. split; [eauto|]. intros H. apply IH. intros p I. apply H. now right.
Qed.
Lemma kp_d P u : isd u = true -> (forall v, In v P -> isd v = false) -> forall Q, ft (u_thr u) (kp (P ++ u :: Q)) = ft (u_thr u) P.
Proof.
  intros D N. assert (marked (rev P) u = true) as Mu by (unfold marked; now rewrite D). induction Q as [|v Q IH] using rev_ind.
  - rewrite kp_snoc, Mu. f_equal. apply kp_all, mk_none, N.
  - replace (P ++ u :: Q ++ [v]) with ((P ++ u :: Q) ++ [v]) by now rewrite <- app_assoc. rewrite kp_snoc. destruct (marked (rev (P ++ u :: Q)) v) eqn:M; [exact IH|]. rewrite filter_app, IH, ft_one.
    destruct (Nat.eqb_spec (u_thr v) (u_thr u)) as [E|E]; [|now rewrite app_nil_r]. exfalso. rewrite (mark_thr _ u v (in_mk P u Q Mu)) in M; [discriminate M|auto].
Qed.
(* the most recent writer of a byte *)
Definition wb (b : Z) (u : unit) : bool := match u with UC n => in_cellb (k_c n) b && k_w n | UM x => e_w (snd x) && coversb (snd x) b end.
Definition vb (u : unit) : mem := match u with UC n => k_m' n | UM x => e_b (snd x) end.
Lemma uapply_wb m u b : uapply m u b = if wb b u then vb u b else m b.
Proof. destruct u; reflexivity. Qed.
Fixpoint lastb (b : Z) (M : list (unit * bool)) : bool := match M with [] => false | (u, k) :: M' => if wb b u then k else lastb b M' end.
Lemma kp_mem G P b : lastb b (mk (rev P)) = false -> umem G (kp P) b = umem G P b.
Proof.
  induction P as [|u P IH] using rev_ind; intros H; [reflexivity|]. rewrite mk_snoc in H. cbn [lastb] in H. rewrite kp_snoc, umem_snoc, uapply_wb. destruct (wb b u) eqn:Wu.
  - rewrite H, umem_snoc, uapply_wb, Wu. reflexivity.
  - specialize (IH H). destruct (marked (rev P) u); [exact IH|]. now rewrite umem_snoc, uapply_wb, Wu.
Qed.
End M.

Section P.
Context (T : arch) (G : graph) (Ie : t_ie T = None) (W : t_wf T) (X : execution T G) (Cl : sc_client G) (F : race_free G (sc_happens_before G)).
Context (HW : forall t q c r its, call_at G t q c r its -> releases (weff c) = true).
Context (L : list unit) (N : nat) (HN : forall t, (N <= t)%nat -> g_thr G t = []) (HL : Forall (fun u => (u_thr u < N)%nat) L) (HT : forall t, (t < N)%nat -> u_list T G t (filter (of_thr u_thr t) L)).
Context (S : list unit) (Pm : Permutation L S) (So : StronglySorted (fun a b => ~ ufirst G b a) S).
Context (d : eid) (vd : ev) (Hd : plain_at G d vd).
Notation Sm := (smp_ie T Ie).
Notation Lc := (nodes L).
Notation LcG := (Lc_good T G L N HL HT).
Notation LcA := (Lc_all T G L N HN HT).
Notation LcI := (Lc_inj T G L N HL HT).
Lemma S_L u : In u S -> In u L.
Proof. apply Permutation_in. now apply Permutation_sym. Qed.
Lemma S_ok u : In u S -> u_good T G u.
Proof. intros I. exact (L_good T G L N HL HT u (S_L u I)). Qed.
Lemma pre_L P Q : S = P ++ Q -> incl P L.
Proof. intros E z Z. apply S_L. rewrite E. apply in_or_app. now left. Qed.
Lemma before_upo P u Q p : S = P ++ u :: Q -> In p P -> u_thr p = u_thr u -> upo G p u.
Proof.
  intros E I Et. split; [exact Et|]. pose proof So as So'. rewrite E in So'. destruct (ss_app _ _ _ So') as (_ & _ & K). specialize (K p u I (or_introl eq_refl)).
  destruct (Nat.lt_trichotomy (u_key G p) (u_key G u)) as [Q1|[Q1|Q1]]; [exact Q1| |exfalso; apply K; left; split; [now symmetry|exact Q1]].
  exfalso. assert (In p L /\ In u L) as [Ip Iu] by (split; apply S_L; rewrite E; apply in_or_app; [now left|right; now left]). pose proof HL as HL'. rewrite Forall_forall in HL'.
  destruct (HT (u_thr p) (HL' p Ip)) as (_ & _ & Ss & _). assert (p = u) as ->.
  { apply (ss_inj (u_key G) _ _ _ Ss); [apply filter_In; split; [exact Ip|apply Nat.eqb_refl]|apply filter_In; split; [exact Iu|unfold of_thr; rewrite Et; apply Nat.eqb_refl]|exact Q1]. }
  pose proof (Permutation_NoDup Pm (L_nodup T G L N HL HT)) as Nd. rewrite E in Nd. apply NoDup_remove_2 in Nd. apply Nd, in_or_app. now left.
Qed.
(* the calls read what the last call before them wrote *)
Definition dep (u : unit) : Prop := u = UM (d, vd) \/ upo G (UM (d, vd)) u \/
  exists t1 q1 q2, before G d t1 q1 /\ sc_reaches G (t1, q1) (u_thr u, q2) /\ (base G (u_thr u) q2 <= u_key G u)%nat.
Lemma dep_upo p u : dep p -> upo G p u -> dep u.
Proof.
  intros [->|[P|(t1 & q1 & q2 & B & R & Le)]] Q; [right; now left|right; left; exact (upo_trans _ _ _ _ P Q)|]. right. right. destruct Q as [Et Lt]. exists t1, q1, q2. rewrite <- Et. split; [exact B|]. split; [exact R|lia].
Qed.
Lemma dep_before p t q : dep p -> u_thr p = t -> (u_key G p < base G t q)%nat ->
  exists t1 q1, before G d t1 q1 /\ ((t1, q1) = (t, q) \/ exists q2, (q2 <= q)%nat /\ sc_reaches G (t1, q1) (t, q2)).
Proof.
  intros [->|[[Et Lt]|(t1 & q1 & q2 & B & R & Le)]] <- Lk.
  - exists (fst d), q. split; [split; [reflexivity|exact Lk]|now left].
  - exists (u_thr p), q. cbn [u_thr u_key fst snd] in *. split; [split; [exact Et|lia]|now left].
  - exists t1, q1. split; [exact B|right]. exists q2. split; [|exact R]. destruct (Nat.le_gt_cases q2 q) as [Z|Z]; [exact Z|]. pose proof (base_mono G (u_thr p) q q2 ltac:(lia)). lia.
Qed.
Lemma dep_reach p t q u q2 : dep p -> u_thr p = t -> (u_key G p < base G t q)%nat -> sc_reaches G (t, q) (u_thr u, q2) -> (base G (u_thr u) q2 <= u_key G u)%nat -> dep u.
Proof.
  intros D Et Lk R Le. right. right. destruct (dep_before p t q D Et Lk) as (t1 & q1 & B & [E|(q0 & Lq & R0)]).
  - injection E as -> ->. exists t, q, q2. auto.
  - exists t1, q1, q2. split; [exact B|]. split; [exact (reaches_trans _ _ _ _ _ _ R0 Lq R)|exact Le].
Qed.
Lemma clash_dep P x Q y : S = P ++ UM y :: Q -> In (UM x) P -> clash (UM x) (UM y) = true -> dep (UM x) -> dep (UM y).
Proof.
  intros E I Cl' D. cbn in Cl'. apply andb_prop in Cl'. destruct Cl' as [Ov Ww]. apply overl_spec in Ov. destruct Ov as (b & Cx & Cy). apply orb_prop in Ww.
  assert (plain_at G (fst x) (snd x) /\ plain_at G (fst y) (snd y)) as [Px Py] by (split; [apply (S_ok (UM x)); rewrite E; apply in_or_app; now left|apply (S_ok (UM y)); rewrite E; apply in_or_app; right; now left]).
  destruct (Nat.eq_dec (fst (fst x)) (fst (fst y))) as [Et|Nt]; [apply (dep_upo _ _ D); exact (before_upo P (UM y) Q (UM x) E I Et)|].
  assert (fst x <> fst y) as Ne by congruence. pose proof So as So'. rewrite E in So'. destruct (ss_app _ _ _ So') as (_ & _ & K). specialize (K (UM x) (UM y) I (or_introl eq_refl)).
  destruct (dconf_total T G X b x y Px Py Cx Cy Ne Ww) as [Dc|Dc].
  - destruct (dfirst_bef T G Ie W X _ (sc_hb_sub G) F x y Px Py) as [P1|[P1|(t1 & q1 & t2 & q2 & [B1 B2] & R & [A1 A2])]]; [right; split; [exact Ne|exists b; auto]|destruct P1 as [Z _]; contradiction|destruct P1 as [Z _]; contradiction|].
    subst t1 t2. apply (dep_reach (UM x) (fst (fst x)) q1 (UM y) q2 D eq_refl B2 R). cbn [u_thr u_key]. pose proof (base_mono G (fst (fst y)) q2 (Datatypes.S q2) ltac:(lia)). lia.
  - exfalso. apply K. right. right. split; [congruence|exists b; auto].
Qed.
Lemma lastw_split P n : lastw n (mk d (rev P)) = true -> exists P1 n' P2, P = P1 ++ UC n' :: P2 /\ k_w n' = true /\ cellof n' = cellof n /\ marked d (rev P1) (UC n') = true /\
  forall n'', k_w n'' = true -> cellof n'' = cellof n -> ~ In (UC n'') P2.
Proof.
  induction P as [|u P IH] using rev_ind; [discriminate|]. rewrite mk_snoc. cbn [lastw].
  assert (lastw n (mk d (rev P)) = true -> (forall n'', u = UC n'' -> k_w n'' = true -> cellof n'' = cellof n -> False) -> exists P1 n' P2, P ++ [u] = P1 ++ UC n' :: P2 /\ k_w n' = true /\ cellof n' = cellof n /\ marked d (rev P1) (UC n') = true /\
    forall n'', k_w n'' = true -> cellof n'' = cellof n -> ~ In (UC n'') P2) as K.
  { intros H Nu. destruct (IH H) as (P1 & n' & P2 & -> & A & B & C & D). exists P1, n', (P2 ++ [u]). split; [now rewrite <- app_assoc|]. split; [exact A|]. split; [exact B|]. split; [exact C|].
    intros n'' A' B' I. apply in_app_or in I. destruct I as [I|[I|[]]]; [exact (D n'' A' B' I)|exact (Nu n'' I A' B')]. }
  destruct u as [m|x]; [|intros H; apply (K H); intros ? Q; discriminate Q]. destruct (k_w m && same_cell m n) eqn:E.
  - intros M. apply andb_prop in E. destruct E as [E1 E2]. exists P, m, []. unfold same_cell in E2. destruct (cell_dec (cellof m) (cellof n)); [|discriminate E2]. auto 10.
  - intros H. apply (K H). intros n'' Q A B. injection Q as <-. rewrite A in E. unfold same_cell in E. destruct (cell_dec (cellof m) (cellof n)); [discriminate E|contradiction].
Qed.
Lemma Sc_split P n Q : S = P ++ UC n :: Q -> nodes S = nodes P ++ n :: nodes Q.
Proof. intros ->. now rewrite nodes_app. Qed.
Lemma call_takes P1 n' P2 n Q : S = (P1 ++ UC n' :: P2) ++ UC n :: Q -> k_w n' = true -> cellof n' = cellof n -> (forall n'', k_w n'' = true -> cellof n'' = cellof n -> ~ In (UC n'') P2) ->
  is_store (k_c n) = false -> takes_from G (k_t n', k_q n') (k_t n, k_q n).
Proof.
  intros E Wn Ec Nx St. pose proof LcG as GL. rewrite Forall_forall in GL.
  assert (In n' Lc /\ In n Lc) as [I' I] by (split; apply in_nodes, S_L; rewrite E; apply in_or_app; [left; apply in_or_app; right; now left|right; now left]).
  pose proof (Sc_split _ _ _ E) as Es. rewrite nodes_app in Es. cbn [nodes flat_map app] in Es. change (flat_map _ P2) with (nodes P2) in Es.
  pose proof (b0_in T G Sm Lc LcG n I) as Cb.
  destruct (reads_last T G X Sm W Lc LcG LcI LcA (cl_code G Cl) (Lc_cells T G Cl L N HL HT) (nodes S) (Sc_perm L S Pm) (Sc_sorted G S So) (nodes P1 ++ n' :: nodes P2) n (nodes Q) Es
    (Sc_nodup T G L N HL HT S Pm) (b0 n) (nodes P1) n' (nodes P2) St Cb eq_refl) as (w' & y & Ca & Fw & Ro).
  { split; [exact I'|]. split; [exact Ec|exact Wn]. }
  { intros m (_ & Em & Wm) J. apply in_nodes in J. exact (Nx m Wm Em J). }
  pose proof (GL _ I') as G1. pose proof (GL _ I) as G2. destruct (gd_call _ _ _ G1) as (its1 & C1 & K1).
  assert (exists its, call_at G (k_t n) (k_q n) (k_c n) (k_r n) its /\ the_read G y (k_t n) (k_q n) its) as (its2 & C2 & Hr).
  { destruct Ro as [[W2 ->]|[W2 Rm]].
    - destruct (gd_sc _ _ _ G2) as (r & its & C & _ & [[_ Hr]|(Fx & i & Ei & (_ & (u & Au & Wu) & _))]).
      + destruct (gd_call _ _ _ G2) as (its' & C' & _). unfold call_at in *. rewrite C in C'. injection C' as -> <-. eauto.
      + exfalso. pose proof (lift_ev G _ _ _ _ _ _ _ _ C Fx Ei Au) as Ev. pose proof (gd_ev _ _ _ G2) as Ev'. unfold k_w in W2. unfold ev_at, at_ in *. congruence.
    - destruct (node_rw T G X Sm W n y G2 St W2 Rm) as (its & C & Hr & _). eauto. }
  assert (a_write G (k_x n') (k_t n') (k_q n') its1) as Hw.
  { destruct (gd_sc _ _ _ G1) as (r & its & C & _ & Sh). unfold call_at in *. rewrite C1 in C. injection C as _ <-. destruct Sh as [[_ (Fx & i & Ei & Ri)]|(Fx & i & Ei & (_ & Wi & _))]; [|split; [exact Fx|exists i; auto]].
    exfalso. assert (exists u, at_ its1 i u /\ e_w u = false) as (u & Au & Wu) by (destruct Ri as [(kk & _ & _ & Q1 & _)|(_ & _ & Q1 & _)]; exact Q1).
    pose proof (lift_ev G _ _ _ _ _ _ _ _ C1 Fx Ei Au) as Ev. pose proof (gd_ev _ _ _ G1) as Ev'. unfold k_w in Wn. unfold ev_at, at_ in *. congruence. }
  exists (k_c n'), (k_r n'), its1, (k_c n), (k_r n), its2, (k_x n'), w', y, (b0 n). cbn [fst snd]. split; [exact C1|]. split; [exact (HW _ _ _ _ _ C1)|]. split; [exact Hw|]. split; [exact C2|]. split; [exact St|].
  split; [pose proof (cl_sc G Cl _ _ _ _ _ C2) as Q1; destruct (eff (k_c n) (k_r n)); auto; discriminate Q1|]. split; [exact Hr|]. split; [exact Ec|]. split; [exact Cb|]. split; [exact Ca|exact Fw].
Qed.
Lemma marked_dep : forall k P u Q, (length P <= k)%nat -> S = P ++ u :: Q -> marked d (rev P) u = true -> dep u.
Proof.
  induction k as [k IH] using lt_wf_ind. intros P u Q Lk E M. assert (forall p, In (p, true) (mk d (rev P)) -> dep p /\ In p P) as K.
  { intros p I. destruct (mk_in _ _ _ I) as (P1 & P2 & -> & Mp). split; [|apply in_or_app; right; now left]. rewrite app_length in Lk. cbn [length] in Lk. refine (IH (length P1) ltac:(lia) P1 p (P2 ++ u :: Q) (le_n _) _ Mp).
    rewrite E, <- app_assoc. reflexivity. }
  unfold marked in M. apply orb_prop in M. destruct M as [M|M].
  { destruct u as [n|[x v]]; [discriminate M|]. left. cbn in M. destruct (eid_dec x d) as [->|]; [|discriminate M]. f_equal. f_equal. apply (plain_fun G d); [|exact Hd]. apply (S_ok (UM (d, v))). rewrite E. apply in_or_app. right. now left. }
  unfold hit in M. apply orb_prop in M. destruct M as [M|M].
  - apply existsb_exists in M. destruct M as ((p & b) & I & M). cbn [fst snd] in M. apply andb_prop in M. destruct M as [-> M]. destruct (K p I) as [D Ip]. apply orb_prop in M. destruct M as [M|M].
    + apply Nat.eqb_eq in M. exact (dep_upo p u D (before_upo P u Q p E Ip M)).
    + destruct p as [n|x]; [discriminate M|]. destruct u as [n|y]; [discriminate M|]. exact (clash_dep P x Q y E Ip M D).
  - destruct u as [n|x]; [|discriminate M]. apply andb_prop in M. destruct M as [St M]. apply negb_true_iff in St. destruct (lastw_split P n M) as (P1 & n' & P2 & -> & Wn & Ec & Mp & Nx).
    destruct (K (UC n') (in_mk d P1 (UC n') P2 Mp)) as [D _]. pose proof (call_takes P1 n' P2 n Q E Wn Ec Nx St) as Tk.
    assert (good T G n') as G1 by (apply (S_ok (UC n')); rewrite E; apply in_or_app; left; apply in_or_app; right; now left).
    right. right. pose proof (good_range T G n' G1) as Gr. destruct D as [D|[[Et Lt]|(t1 & q1 & q2 & B & R & Le)]]; [discriminate D| |]; cbn [u_thr u_key fst snd] in *.
    + exists (k_t n'), (k_q n'), (k_q n). split; [split; [exact Et|exact Lt]|]. split; [now apply sr_one|apply le_n].
    + exists t1, q1, (k_q n). split; [exact B|]. split; [|apply le_n]. apply (reaches_trans G (t1, q1) (k_t n') q2 (k_q n') _ R); [|now apply sr_one].
      destruct (Nat.le_gt_cases q2 (k_q n')) as [Z|Z]; [exact Z|]. exfalso. pose proof (base_mono G (k_t n') (Datatypes.S (k_q n')) q2 ltac:(lia)). lia.
Qed.
(* ---- what the others find without [d] ---- *)
Lemma lastb_in b M : lastb b M = true -> exists p, In (p, true) M /\ wb b p = true.
Proof.
  induction M as [|[u k] M IH]; cbn; [discriminate|]. destruct (wb b u) eqn:Wu; [intros ->; eauto|]. intros H. destruct (IH H) as (p & I & Q). eauto.
Qed.
Lemma lastb_lastw P n b : incl P L -> In n Lc -> in_cell (k_c n) b -> lastb b (mk d (rev P)) = lastw n (mk d (rev P)).
Proof.
  intros Ip In_ Ib. induction P as [|u P IH] using rev_ind; [reflexivity|]. rewrite mk_snoc. cbn [lastb lastw]. assert (incl P L) as Ip' by (intros z Z; apply Ip, in_or_app; now left). rewrite (IH Ip').
  assert (In u L) as Iu by (apply Ip, in_or_app; right; now left). destruct u as [m|x].
  - assert (wb b (UC m) = k_w m && same_cell m n) as E; [|rewrite E; now destruct (k_w m && same_cell m n)]. cbn [wb]. rewrite andb_comm. f_equal. unfold same_cell. destruct (cell_dec (cellof m) (cellof n)) as [Ec|Nc].
    + apply in_cellb_spec. unfold in_cell in *. now rewrite Ec.
    + destruct (in_cellb (k_c m) b) eqn:Q; [|reflexivity]. exfalso. apply in_cellb_spec in Q. destruct (Lc_cells T G Cl L N HL HT m n) as [Z|Z]; [now apply in_nodes|exact In_|contradiction|]. unfold disjoint, in_cell in *. lia.
  - replace (wb b (UM x)) with false; [reflexivity|]. symmetry. cbn [wb]. destruct (e_w (snd x)); [|reflexivity]. cbn [andb]. destruct (coversb (snd x) b) eqn:Q; [|reflexivity]. exfalso. apply coversb_spec in Q.
    destruct (node_call T G L N HL HT n In_) as (its & C). exact (df_cells _ _ F _ _ _ _ _ _ _ _ (L_good T G L N HL HT _ Iu) Q C Ib).
Qed.
Lemma k_step P u Q : S = P ++ u :: Q -> marked d (rev P) u = false -> act_step T (u_act u) (umem G (kp d P)) (umem G (kp d P ++ [u])).
Proof.
  intros E M. pose proof (u_step T G Ie W X Cl F L N HN HL HT S Pm So P u Q E) as St. pose proof (pre_L P (u :: Q) E) as Ip. assert (In u L) as Iu by (apply S_L; rewrite E; apply in_or_app; right; now left).
  unfold marked, hit in M. apply orb_false_iff in M. destruct M as [_ M]. apply orb_false_iff in M. destruct M as [M1 M2]. destruct u as [n|y].
  - assert (In n Lc) as In_ by now apply in_nodes. pose proof LcG as GL. rewrite Forall_forall in GL. pose proof (gd_val _ _ _ (GL n In_)) as V.
    assert (is_store (k_c n) = false -> forall b, in_cell (k_c n) b -> umem G (kp d P) b = umem G P b) as Rd.
    { intros Ns b Cb. apply kp_mem. rewrite (lastb_lastw P n b Ip In_ Cb). rewrite Ns in M2. exact M2. }
    cbn [u_act act_step] in *. apply (done_at T (k_c n) _ _ _ _ _ St).
    + destruct (is_store (k_c n)) eqn:Z; [now left|right; now apply Rd].
    + intros b Cb. rewrite !umem_snoc. cbn [uapply]. unfold apply1. rewrite (proj2 (in_cellb_spec _ _) Cb). cbn [andb]. destruct (k_w n); [reflexivity|]. destruct V as (Ns & _). now apply Rd.
    + intros b C. rewrite umem_snoc. cbn [uapply]. unfold apply1. destruct (in_cellb (k_c n) b) eqn:Z; [exfalso; apply C; now apply in_cellb_spec|reflexivity].
  - cbn [u_act act_step] in *. unfold plain_step in *. rewrite umem_snoc in St |- *. cbn [uapply] in St |- *. destruct (e_w (snd y)) eqn:Wy.
    + intros b. destruct (dapply_spec (umem G (kp d P)) y b) as [(_ & C & ->)|(Nn & ->)]; split; auto; [contradiction|intros C; destruct Nn; auto].
    + split; [|intros b; destruct (dapply_spec (umem G (kp d P)) y b) as [(Q1 & _)|(_ & ->)]; [congruence|reflexivity]]. destruct St as [St _]. intros b C. rewrite (St b C). symmetry. apply kp_mem.
      destruct (lastb b (mk d (rev P))) eqn:Lb; [|reflexivity]. exfalso. destruct (lastb_in _ _ Lb) as (p & I & Wp). destruct (mk_in _ _ _ I) as (P1 & P2 & EP & _).
      assert (In p L) as Ipl by (apply Ip; rewrite EP; apply in_or_app; right; now left). destruct p as [m|x]; cbn [wb] in Wp; apply andb_prop in Wp; destruct Wp as [Wp1 Wp2].
      * apply in_cellb_spec in Wp1. destruct (node_call T G L N HL HT m) as (its & Cm); [now apply in_nodes|]. exact (df_cells _ _ F _ _ _ _ _ _ _ _ (L_good T G L N HL HT _ Iu) C Cm Wp1).
      * apply coversb_spec in Wp2. assert (existsb (fun p => snd p && (Nat.eqb (u_thr (fst p)) (u_thr (UM y)) || clash (fst p) (UM y))) (mk d (rev P)) = true) as Q1; [|congruence].
        apply existsb_exists. exists (UM x, true). split; [exact I|]. cbn [fst snd andb clash]. rewrite (proj2 (overl_spec _ _)) by eauto. rewrite Wp1. cbn. apply orb_true_r.
Qed.
Lemma S_acts t : acts (g_thr G t) = map u_act (filter (of_thr u_thr t) S).
Proof.
  rewrite (same_threads u_thr (u_key G) (ufirst G) L S); auto.
  - destruct (Nat.lt_ge_cases t N) as [Lt|Ge]; [now destruct (HT t Lt) as (E & _)|]. rewrite (HN t Ge), filter_none; [reflexivity|]. eapply Forall_impl; [|exact HL]. intros u Hu. unfold of_thr. apply Nat.eqb_neq. cbv beta in Hu. lia.
  - intros a b E Lt. left. split; auto.
  - intros t'. destruct (Nat.lt_ge_cases t' N) as [Lt|Ge]; [now destruct (HT t' Lt) as (_ & _ & Q & _)|]. rewrite filter_none; [constructor|]. eapply Forall_impl; [|exact HL]. intros u Hu. unfold of_thr. apply Nat.eqb_neq. cbv beta in Hu. lia.
Qed.
Lemma without te : te <> fst d -> (exists t1 q1 q2, before G d t1 q1 /\ sc_reaches G (t1, q1) (te, q2)) \/
  exists H mf, merged (act_step T) H (g_init G) mf /\ H te = acts (g_thr G te) /\ (exists h, acts (g_thr G (fst d)) = H (fst d) ++ AMem vd :: h) /\ forall t, exists h, acts (g_thr G t) = H t ++ h.
Proof.
  intros Ne. destruct (existsb (fun p => snd p && Nat.eqb (u_thr (fst p)) te) (mk d (rev S))) eqn:Ex.
  - left. apply existsb_exists in Ex. destruct Ex as ((u & b) & I & Q). cbn [fst snd] in Q. apply andb_prop in Q. destruct Q as [-> Et]. apply Nat.eqb_eq in Et. destruct (mk_in _ _ _ I) as (P1 & P2 & E & Mu).
    destruct (marked_dep (length P1) P1 u P2 (le_n _) E Mu) as [->|[[Z _]|(t1 & q1 & q2 & B & R & _)]]; [exfalso; apply Ne; symmetry; exact Et|exfalso; apply Ne; cbn [u_thr fst] in Z; congruence|]. rewrite Et in R. eauto.
  - right. exists (fun t => map u_act (filter (of_thr u_thr t) (kp d S))), (umem G (kp d S)). split; [|split; [|split]].
    + refine (mg_replay u_thr u_act (act_step T) (umem G) (kp d S) _ (kp d S) [] eq_refl). intros P u Q E. destruct (kp_split _ _ _ _ _ E) as (P0 & Q0 & E0 & -> & M). exact (k_step P0 u Q0 E0 M).
    + rewrite S_acts. f_equal. symmetry. apply kp_thr. intros p I Et. assert (existsb (fun p => snd p && Nat.eqb (u_thr (fst p)) te) (mk d (rev S)) = true) as Q1; [|congruence].
      apply existsb_exists. exists (p, true). split; [exact I|]. cbn [fst snd]. rewrite Et. cbn. apply Nat.eqb_refl.
    + assert (In (UM (d, vd)) S) as Id by (apply (Permutation_in _ Pm); apply in_datas; now apply (Ld_all T G L N HN HL HT)). destruct (in_split _ _ Id) as (P0 & Q0 & E0).
      assert (forall v, In v P0 -> isd d v = false) as Nd.
      { intros v Iv. destruct v as [n|x]; [reflexivity|]. cbn. destruct (eid_dec (fst x) d) as [Q1|]; [exfalso|reflexivity]. pose proof (before_upo P0 (UM (d, vd)) Q0 (UM x) E0 Iv) as K. cbn [u_thr fst] in K. rewrite Q1 in K.
        destruct (K eq_refl) as [_ Z]. cbn [u_key fst] in Z. rewrite Q1 in Z. lia. }
      rewrite S_acts. assert (filter (of_thr u_thr (fst d)) (kp d S) = filter (of_thr u_thr (fst d)) P0) as ->.
      { rewrite E0. apply (kp_d d P0 (UM (d, vd))); [cbn; destruct (eid_dec d d); [reflexivity|contradiction]|exact Nd]. }
      rewrite E0, filter_app. cbn [filter]. unfold of_thr at 2. cbn [u_thr fst]. rewrite Nat.eqb_refl. exists (map u_act (filter (of_thr u_thr (fst d)) Q0)). rewrite map_app. reflexivity.
    + intros t. destruct (kp_thr d S t) as [(h & E) _]. exists (map u_act h). rewrite S_acts, E, map_app. reflexivity.
Qed.
End P.
Lemma drop_one T G : t_ie T = None -> t_wf T -> execution T G -> sc_client G -> race_free G (sc_happens_before G) ->
  (forall t q c r its, call_at G t q c r its -> releases (weff c) = true) -> forall d vd te, plain_at G d vd -> te <> fst d ->
  (exists t1 q1 q2, before G d t1 q1 /\ sc_reaches G (t1, q1) (te, q2)) \/
  exists H mf, merged (act_step T) H (g_init G) mf /\ H te = acts (g_thr G te) /\ (exists h, acts (g_thr G (fst d)) = H (fst d) ++ AMem vd :: h) /\ forall t, exists h, acts (g_thr G t) = H t ++ h.
Proof.
  intros Ie W X Cl F HW d vd te Hd Ne. destruct (df_fin _ _ F) as (N & HN). destruct (collect u_thr (u_list T G) N (fun t _ => unit_list T G Ie W X Cl t)) as (L & HL & HT).
  destruct (topo (ufirst G) (length L) L eq_refl) as (S & Pm & So).
  { intros x y Ix Iy. exact (ufirst_dec T G Ie W X Cl F L N HN HL HT x y Ix Iy). }
  { exact (ufirst_acyclic T G Ie W X Cl F L N HN HL HT). }
  exact (without T G Ie W X Cl F HW L N HN HL HT S Pm So d vd Hd te Ne).
Qed.
