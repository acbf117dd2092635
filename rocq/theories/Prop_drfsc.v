(* C40: a program all of whose calls are SeqCst and whose other accesses are free of races behaves as under an interleaving of everything it does,
   on every multi-core target (what Rust promises as "sequentially consistent for race-free programs"). *)
From Verif Require Import SeqCst Prop_order Replay Prop_sc CallLink All_atomic Prop_mp Prop_hb Merge Prop_drf.
From Coq Require Import Permutation Sorted Relations.Operators_Properties.

(* ---- specification ---- *)
Inductive act := ACall (c : op) (r : rval) | AMem (v : ev).
Definition acts (l : list seg) : list act := flat_map (fun s => match s with Call c r _ => [ACall c r] | Code its => map AMem (accs its) end) l.
Definition act_step (T : arch) (a : act) (m m' : mem) : Prop := match a with ACall c r => op_done T c m m' r | AMem v => plain_step v m m' end.
Definition act_spec (e : endian) (a : act) (m m' : mem) : Prop := match a with ACall c r => op_spec e c m m' r | AMem v => plain_step v m m' end.
(* an acquiring call finds in its cell a byte that a releasing call on this cell wrote there, or that other calls have passed on from it (its
   release sequence; a call on a smaller neighbouring cell may write back the word around it) *)
Definition takes_from (G : graph) (p1 p2 : nat * nat) : Prop := exists c1 r1 its1 c2 r2 its2 w w' r b,
  call_at G (fst p1) (snd p1) c1 r1 its1 /\ releases (weff c1) = true /\ a_write G w (fst p1) (snd p1) its1 /\
  call_at G (fst p2) (snd p2) c2 r2 its2 /\ is_store c2 = false /\ acquires (eff c2 r2) = true /\ the_read G r (fst p2) (snd p2) its2 /\
  op_cell c1 = op_cell c2 /\ in_cell c2 b /\ carries G b w w' /\ g_rf G b w' r.
Inductive sc_reaches (G : graph) : nat * nat -> nat * nat -> Prop :=
| sr_one p1 p2 : takes_from G p1 p2 -> sc_reaches G p1 p2
| sr_more p1 t q q' p2 : takes_from G p1 (t, q) -> (q <= q')%nat -> sc_reaches G (t, q') p2 -> sc_reaches G p1 p2.
Definition sc_happens_before (G : graph) (d e : eid) : Prop :=
  po d e \/ exists t1 q1 t2 q2, before G d t1 q1 /\ sc_reaches G (t1, q1) (t2, q2) /\ after G e t2 q2.

Inductive unit := UC (n : node) | UM (u : eid * ev).
Definition u_act (u : unit) : act := match u with UC n => ACall (k_c n) (k_r n) | UM u => AMem (snd u) end.
Definition u_thr (u : unit) : nat := match u with UC n => k_t n | UM u => fst (fst u) end.
Definition nodes (l : list unit) : list node := flat_map (fun u => match u with UC n => [n] | UM _ => [] end) l.
Definition datas (l : list unit) : list (eid * ev) := flat_map (fun u => match u with UC _ => [] | UM u => [u] end) l.
Lemma in_nodes n l : In n (nodes l) <-> In (UC n) l.
Proof. unfold nodes. rewrite in_flat_map. split; [intros ([n'|u'] & I & H); [destruct H as [E|[]]; now subst|destruct H]|intros I; exists (UC n); split; [exact I|now left]]. Qed.
Lemma in_datas u l : In u (datas l) <-> In (UM u) l.
Proof. unfold datas. rewrite in_flat_map. split; [intros ([n'|u'] & I & H); [destruct H|destruct H as [E|[]]; now subst]|intros I; exists (UM u); split; [exact I|now left]]. Qed.
Lemma nodes_app l l' : nodes (l ++ l') = nodes l ++ nodes l'.
Proof. apply flat_map_app. Qed.
Lemma datas_app l l' : datas (l ++ l') = datas l ++ datas l'.
Proof. apply flat_map_app. Qed.
Lemma nodes_sorted R l : StronglySorted R l -> StronglySorted (fun a b => R (UC a) (UC b)) (nodes l).
Proof.
  induction 1 as [|[n|u] l S IH F]; [constructor| |exact IH]. cbn. constructor; [exact IH|]. rewrite Forall_forall in *. intros x I. apply F. now apply in_nodes.
Qed.
Lemma datas_sorted R l : StronglySorted R l -> StronglySorted (fun a b => R (UM a) (UM b)) (datas l).
Proof.
  induction 1 as [|[n|u] l S IH F]; [constructor|exact IH|]. cbn. constructor; [exact IH|]. rewrite Forall_forall in *. intros x I. apply F. now apply in_datas.
Qed.
Lemma ss_weaken {A} (R R' : A -> A -> Prop) l : (forall a b, In a l -> In b l -> R a b -> R' a b) -> StronglySorted R l -> StronglySorted R' l.
Proof.
  induction l as [|a l IH]; intros H S; [constructor|]. apply StronglySorted_inv in S. destruct S as [S F]. constructor; [apply IH; auto; intros x y X Y; apply H; now right|].
  rewrite Forall_forall in *. intros x X. apply H; [now left|now right|auto].
Qed.

Section P.
Context (T : arch) (G : graph) (Ie : t_ie T = None) (W : t_wf T) (X : execution T G) (Cl : sc_client G) (F : race_free G (sc_happens_before G)).
Notation Sa := (ex_sane T G X).
Notation Sm := (smp_ie T Ie).
Lemma sc_hb_sub d e : sc_happens_before G d e -> happens_before G d e.
Proof.
  intros [P|(t1 & q1 & t2 & q2 & B & R & A)]; [now left|right]. exists t1, q1, t2, q2. split; [exact B|]. split; [|exact A]. clear B A.
  assert (forall p1 p2, takes_from G p1 p2 -> syncs G p1 p2) as K.
  { intros p1 p2 (c1 & r1 & its1 & c2 & r2 & its2 & w & w' & r & b & C1 & Rl & Hw & C2 & N & Aq & Hr & _ & _ & Ca & Fw). exists c1, r1, its1, c2, r2, its2, w, r. repeat (split; [assumption|]). left. exists b, w'. split; [|exact Fw].
    clear - Ca. assert (forall z, rseq G (lib_rmw G) w' z -> rseq G (lib_rmw G) w z) as K; [|apply K; constructor].
    induction Ca as [w|w w1 r1 w2 Ca IH F R Wr Li]; intros z Z; [exact Z|]. apply IH. exact (rs_rmw G (lib_rmw G) b w1 r1 w2 z F R Wr Li Z). }
  induction R as [p1 p2 H|p1 t q q' p2 H L R IH]; [apply re_one; auto|exact (re_more G p1 t q q' p2 (K _ _ H) L IH)].
Qed.
Definition u_key (u : unit) : nat := match u with UC n => base G (k_t n) (k_q n) | UM u => snd (fst u) end.
Definition u_good (u : unit) : Prop := match u with UC n => good T G n | UM u => plain_at G (fst u) (snd u) end.
Lemma good_range n : good T G n -> (base G (k_t n) (k_q n) < base G (k_t n) (S (k_q n)))%nat.
Proof. intros H. pose proof (sc_range G _ _ _ _ (gd_sc _ _ _ H)). lia. Qed.
Definition u_list (t : nat) (l : list unit) : Prop := map u_act l = acts (g_thr G t) /\ Forall u_good l /\ StronglySorted (fun a b => (u_key a < u_key b)%nat) l /\
  (forall q c r its, call_at G t q c r its -> exists n, In (UC n) l /\ k_q n = q) /\ (forall x v, plain_at G x v -> fst x = t -> In (UM (x, v)) l).
Lemma unit_list t : exists l, u_list t l /\ Forall (fun u => u_thr u = t) l.
Proof.
  assert (forall suf pre, g_thr G t = pre ++ suf -> exists l, map u_act l = acts suf /\ Forall u_good l /\ StronglySorted (fun a b => (u_key a < u_key b)%nat) l /\
    Forall (fun u => u_thr u = t /\ (base G t (length pre) <= u_key u)%nat) l /\
    (forall q c r its, nth_error suf q = Some (Call c r its) -> exists n, In (UC n) l /\ k_q n = (length pre + q)%nat) /\
    forall q its i v, nth_error suf q = Some (Code its) -> at_ its i v -> In (UM ((t, (base G t (length pre + q) + i)%nat), v)) l) as K.
  { induction suf as [|s suf IH]; intros pre E.
    - exists []. repeat split; try constructor; intros q; intros; destruct q; discriminate.
    - destruct (IH (pre ++ [s])) as (l & H1 & H2 & H3 & H4 & H5 & H6); [now rewrite <- app_assoc|]. rewrite app_length in H4, H5, H6. cbn [length] in H4, H5, H6. replace (length pre + 1)%nat with (S (length pre)) in * by lia.
      assert (nth_error (g_thr G t) (length pre) = Some s) as Hs by (rewrite E, nth_error_app2, Nat.sub_diag by lia; reflexivity).
      pose proof (base_mono G t (length pre) (S (length pre)) ltac:(lia)) as Bm.
      assert (forall q its i v, nth_error suf q = Some (Code its) -> at_ its i v -> In (UM ((t, (base G t (length pre + S q) + i)%nat), v)) l) as H6'.
      { intros q its i v Hq A. specialize (H6 q its i v Hq A). now replace (length pre + S q)%nat with (S (length pre) + q)%nat by lia. }
      destruct s as [c r its|its].
      + destruct (node_of T G X Sm W (cl_sc _ Cl) t (length pre) c r its Hs) as (n & Gn & Tn & Qn & Cn & Rn). pose proof (good_range n Gn) as Gr. rewrite Tn, Qn in Gr.
        exists (UC n :: l). split; [cbn [map acts flat_map u_act app]; rewrite Cn, Rn, H1; reflexivity|]. split; [constructor; [exact Gn|exact H2]|].
        split; [constructor; auto; eapply Forall_impl; [|exact H4]; intros u [_ ?]; cbn [u_key]; rewrite Tn, Qn; lia|].
        split; [constructor; [cbn [u_thr u_key]; rewrite Tn, Qn; auto|eapply Forall_impl; [|exact H4]; intros u [? ?]; split; [auto|lia]]|]. split.
        * intros [|q] c' r' its' Hq; [exists n; split; [now left|lia]|]. destruct (H5 q c' r' its' Hq) as (n' & I & Eq). exists n'. split; [now right|lia].
        * intros [|q] its' i v Hq A; [discriminate Hq|]. right. exact (H6' q its' i v Hq A).
      + destruct (accs_list G t (length pre) its Hs) as (l0 & A1 & A2 & A3 & A4 & A5). exists (map UM l0 ++ l).
        split; [rewrite map_app, H1; cbn [acts flat_map]; f_equal; rewrite <- A1, !map_map; reflexivity|].
        split; [apply Forall_app; split; [rewrite Forall_forall in *; intros u I; apply in_map_iff in I; destruct I as (u0 & <- & I); exact (A2 u0 I)|exact H2]|].
        split; [apply ss_join; auto|].
        { clear - A4. induction A4 as [|a l0 S IH Fa]; [constructor|]. cbn. constructor; [exact IH|]. rewrite Forall_forall in *. intros u I. apply in_map_iff in I. destruct I as (u0 & <- & I). exact (Fa u0 I). }
        { intros a b Ia Ib. apply in_map_iff in Ia. destruct Ia as (a0 & <- & Ia). rewrite Forall_forall in A3, H4. destruct (A3 a0 Ia) as [_ [_ Q1]], (H4 b Ib) as [_ Q2]. exact (Nat.lt_le_trans _ _ _ Q1 Q2). }
        split; [apply Forall_app; split; [rewrite Forall_forall in *; intros u I; apply in_map_iff in I; destruct I as (u0 & <- & I); destruct (A3 u0 I) as [Q1 [Q2 _]]; split; [exact Q1|exact Q2]|eapply Forall_impl; [|exact H4]; intros u [? ?]; split; [auto|lia]]|]. split.
        * intros [|q] c' r' its' Hq; [discriminate Hq|]. destruct (H5 q c' r' its' Hq) as (n' & I & Eq). exists n'. split; [apply in_or_app; now right|lia].
        * intros [|q] its' i v Hq A; apply in_or_app; [left|right; exact (H6' q its' i v Hq A)]. cbn in Hq. injection Hq as <-. rewrite Nat.add_0_r. apply in_map. exact (A5 i v A). }
  destruct (K (g_thr G t) [] eq_refl) as (l & H1 & H2 & H3 & H4 & H5 & H6). exists l. split; [|eapply Forall_impl; [|exact H4]; intros u [? _]; auto]. split; [exact H1|]. split; [exact H2|]. split; [exact H3|]. split.
  - intros q c r its C. exact (H5 q c r its C).
  - intros [t' k] v (q & its & i & Hq & A & E) Et. cbn [fst snd] in *. subst t' k. exact (H6 q its i v Hq A).
Qed.

Section L.
Context (L : list unit) (N : nat) (HN : forall t, (N <= t)%nat -> g_thr G t = []) (HL : Forall (fun u => (u_thr u < N)%nat) L) (HT : forall t, (t < N)%nat -> u_list t (filter (of_thr u_thr t) L)).
Lemma L_good u : In u L -> u_good u.
Proof.
  intros I. rewrite Forall_forall in HL. destruct (HT (u_thr u) (HL u I)) as (_ & Fg & _). rewrite Forall_forall in Fg. apply Fg. apply filter_In. split; [exact I|apply Nat.eqb_refl].
Qed.
Notation Lc := (nodes L).
Lemma Lc_good : Forall (good T G) Lc.
Proof. apply Forall_forall. intros n I. apply in_nodes in I. exact (L_good _ I). Qed.
Lemma Lc_inj n n' : In n Lc -> In n' Lc -> k_t n = k_t n' -> k_q n = k_q n' -> n = n'.
Proof.
  intros I I' Et Eq. apply in_nodes in I. apply in_nodes in I'. pose proof HL as HL'. rewrite Forall_forall in HL'. destruct (HT (k_t n) (HL' _ I)) as (_ & _ & So & _).
  assert (UC n = UC n') as E; [|now injection E]. apply (ss_inj u_key _ _ _ So); [apply filter_In; split; [exact I|apply Nat.eqb_refl]|apply filter_In; split; [exact I'|unfold of_thr; cbn [u_thr]; rewrite Et; apply Nat.eqb_refl]|]. cbn [u_key]. now rewrite Et, Eq.
Qed.
Lemma Lc_all t q c r its : call_at G t q c r its -> exists n, In n Lc /\ k_t n = t /\ k_q n = q.
Proof.
  intros C. assert (t < N)%nat as Lt. { destruct (Nat.lt_ge_cases t N) as [Lt|Ge]; [exact Lt|]. unfold call_at in C. rewrite (HN t Ge) in C. destruct q; discriminate C. }
  destruct (HT t Lt) as (_ & _ & _ & K & _). destruct (K q c r its C) as (n & I & E). apply filter_In in I. destruct I as [I J]. exists n. split; [now apply in_nodes|]. split; [now apply Nat.eqb_eq|exact E].
Qed.
Lemma Ld_all x v : plain_at G x v <-> In (x, v) (datas L).
Proof.
  split.
  - intros Px. destruct (Nat.lt_ge_cases (fst x) N) as [Lt|Ge]; [|destruct Px as (q & its & i & Hq & _); rewrite (HN _ Ge) in Hq; destruct q; discriminate Hq].
    destruct (HT (fst x) Lt) as (_ & _ & _ & _ & K). specialize (K x v Px eq_refl). apply filter_In in K. apply in_datas. apply K.
  - intros I. apply in_datas in I. exact (L_good _ I).
Qed.
Lemma Lc_cells n n' : In n Lc -> In n' Lc -> op_cell (k_c n) = op_cell (k_c n') \/ disjoint (op_cell (k_c n)) (op_cell (k_c n')).
Proof.
  intros I I'. pose proof Lc_good as GL. rewrite Forall_forall in GL. destruct (gd_call _ _ _ (GL n I)) as (its & C & _), (gd_call _ _ _ (GL n' I')) as (its' & C' & _). exact (cl_cells _ Cl _ _ _ _ _ _ _ _ _ _ C C').
Qed.
Notation HCode := (cl_code G Cl).
(* ---- the order ---- *)
Definition upo (u u' : unit) : Prop := u_thr u = u_thr u' /\ (u_key u < u_key u')%nat.
Definition ufirst (u u' : unit) : Prop := upo u u' \/ match u, u' with UC n, UC n' => first G n n' | UM x, UM y => dfirst G x y | _, _ => False end.
Lemma last_read_fun its k i j : last_read its k i -> last_read its k j -> i = j.
Proof.
  intros (L1 & R1 & U1) (L2 & R2 & U2). destruct (Nat.lt_trichotomy i j) as [Q|[Q|Q]]; [|exact Q|]; exfalso; [exact (U1 j ltac:(lia) R2)|exact (U2 i ltac:(lia) R1)].
Qed.
Lemma carries_co b w w' : carries G b w w' -> w = w' \/ g_co G b w w'.
Proof.
  induction 1 as [w|w w1 r1 w2 Ca IH Fw R Wr _]; [now left|right]. pose proof (fr_rf G _ _ _ _ (rmw_fr T G X b r1 w2 R (proj2 (rf_ends T G X _ _ _ Fw)) Wr) Fw) as Co.
  destruct IH as [->|IH]; [exact Co|exact (co_trans _ Sa _ _ _ _ IH Co)].
Qed.
Lemma takes_first n1 n2 : In n1 Lc -> In n2 Lc -> takes_from G (k_t n1, k_q n1) (k_t n2, k_q n2) -> first G n1 n2.
Proof.
  intros I1 I2 (c1 & r1 & its1 & c2 & r2 & its2 & w & w' & r & b & C1 & _ & Hw & C2 & Ns & _ & Hr & Ec & Ib & Ca & Fw). cbn [fst snd] in *. pose proof (carries_co _ _ _ Ca) as Cw.
  pose proof Lc_good as GL. rewrite Forall_forall in GL. pose proof (GL _ I1) as G1. pose proof (GL _ I2) as G2.
  destruct (gd_call _ _ _ G1) as (its1' & C1' & K1). unfold call_at in *. rewrite C1 in C1'. injection C1' as E1 _ <-.
  destruct (gd_call _ _ _ G2) as (its2' & C2' & K2). unfold call_at in C2'. rewrite C2 in C2'. injection C2' as E2 Er2 <-.
  assert (k_x n1 = w /\ k_w n1 = true) as [X1 W1]. { destruct Hw as (Fw1 & i & Ei & (v & Av & Wv)). destruct (K1 i v Av Wv) as [Q1 Q2]. split; [|exact Q2]. rewrite Q1. unfold at_item. destruct w as [t k]. cbn [fst snd] in *. congruence. }
  assert (cellof n1 = cellof n2) as Ec' by congruence. assert (in_cell (k_c n2) b) as Ib2 by (unfold in_cell in *; congruence). assert (in_cell (k_c n1) b) as Ib1 by (unfold in_cell in *; congruence).
  (* the access of the second call is the read, or a write after it *)
  assert ((k_w n2 = false /\ k_x n2 = r) \/ (k_w n2 = true /\ po r (k_x n2))) as Sh.
  { destruct (gd_sc _ _ _ G2) as (r' & its & C & _ & D). unfold call_at in C. rewrite C2 in C. injection C as _ _ <-. destruct Hr as (Fr & j & Ej & Rj). destruct D as [[_ (Fx & i & Ei & Ri)]|(Fx & i & Ei & Wi)].
    - assert (i = j) as ->.
      { destruct Ri as [(k & Ok & Lk)|(Nk & Lk)], Rj as [(k' & Ok' & Lk')|(Nk' & Lk')].
        - destruct Ok as (La & Wa & Ua), Ok' as (Lb & Wb & Ub). assert (k = k') as <-; [|exact (last_read_fun _ _ _ _ Lk Lk')].
          destruct (Nat.lt_trichotomy k k') as [Q|[Q|Q]]; [|exact Q|]; exfalso; [exact (Ua k' ltac:(lia) Wb)|exact (Ub k ltac:(lia) Wa)].
        - exfalso. destruct Ok as (_ & Q & _). exact (Nk' _ Q).
        - exfalso. destruct Ok' as (_ & Q & _). exact (Nk _ Q).
        - exact (last_read_fun _ _ _ _ Lk Lk'). }
      assert (k_x n2 = r) as Xr by (destruct (k_x n2) as [ta ka], r as [tb kb]; cbn [fst snd] in *; congruence). left. split; [|exact Xr].
      destruct (rf_ends T G X _ _ _ Fw) as [_ (u & Au & Wu & _)]. rewrite <- Xr in Au. pose proof (gd_ev _ _ _ G2) as Av. unfold k_w. unfold ev_at, at_ in *. congruence.
    - right. assert (exists v, at_ its2 i v /\ e_w v = true) as (v & Av & Wv) by (destruct Wi as (_ & Q & _); exact Q). split; [exact (proj2 (K2 i v Av Wv))|]. split; [congruence|]. rewrite Ei, Ej.
      assert (j < i)%nat; [|lia]. destruct Rj as [(k & Ok & (Lk & _))|(Nk & _)]; [|exfalso; exact (Nk i (ex_intro _ v (conj Av Wv)))].
      destruct Ok as (La & Wa & Ua), Wi as (Lb & Wb & Ub). destruct (Nat.lt_trichotomy k i) as [Q|[Q|Q]]; [exfalso; exact (Ua i ltac:(lia) Wb)|lia|exfalso; exact (Ub k ltac:(lia) Wa)]. }
  destruct (rf_ends T G X _ _ _ Fw) as [Ww Rr].
  assert (~ conf G b n2 n1 /\ n1 <> n2) as [Nc Ne].
  { destruct Sh as [[W2 X2]|[W2 Pr]].
    - split; [|intros ->; congruence]. unfold conf. rewrite W2, W1, X1, X2. intros Fr. pose proof (fr_rf G _ _ _ _ Fr Fw) as Co. destruct Cw as [->|Cw]; [exact (Replay.co_irr T G X _ _ Co)|exact (Replay.co_asym T G X _ _ _ Cw Co)].
    - assert (writes_b G (k_x n2) b) as W2b by exact (w_byte T G Lc Lc_good n2 b I2 W2 (in_cov T G Sm Lc Lc_good n2 b I2 Ib2)).
      assert (acc_b G r b) as Ar by (destruct Rr as (u & Q1 & _ & Q2); exists u; auto). assert (acc_b G (k_x n2) b) as A2 by (destruct W2b as (u & Q1 & _ & Q2); exists u; auto).
      assert (clos_trans _ (fun x y => poloc G b x y \/ com G b x y) w r) as Cr. { destruct Cw as [->|Cw]; [apply ct1; right; now left|]. apply t_trans with w'; apply ct1; right; [right; now left|now left]. }
      split.
      + unfold conf. rewrite W2, W1, X1. intros Co. apply (coherent _ Sa b w). apply t_trans with r; [exact Cr|]. apply t_trans with (k_x n2); apply ct1; [left; split; auto|right; right; now left].
      + intros ->. apply (coherent _ Sa b w). apply t_trans with r; [exact Cr|]. apply ct1. left. rewrite <- X1. split; auto. }
  right. split; [exact Ec'|]. apply (conf_byte T G X Sm W Lc Lc_good Lc_inj Lc_all HCode b (b0 n1) n1 n2 I1 I2 Ec' Ib1 (b0_in T G Sm Lc Lc_good n1 I1)).
  destruct (conf_total T G X Sm Lc Lc_good Lc_inj b n1 n2 I1 I2 Ec' Ib1 Ne (or_introl W1)) as [Q|Q]; [exact Q|destruct (Nc Q)].
Qed.
Notation tcf := (clos_trans node (on (first G) Lc)).
Lemma reaches_first p1 p2 : sc_reaches G p1 p2 -> exists n1 n2, (In n1 Lc /\ k_t n1 = fst p1 /\ k_q n1 = snd p1) /\ (In n2 Lc /\ k_t n2 = fst p2 /\ k_q n2 = snd p2) /\ tcf n1 n2.
Proof.
  assert (forall p1 p2, takes_from G p1 p2 -> exists n1 n2, (In n1 Lc /\ k_t n1 = fst p1 /\ k_q n1 = snd p1) /\ (In n2 Lc /\ k_t n2 = fst p2 /\ k_q n2 = snd p2) /\ tcf n1 n2) as K.
  { intros [t1 q1] [t2 q2] H. pose proof H as (c1 & r1 & its1 & c2 & r2 & its2 & w & w' & r & b & C1 & _ & _ & C2 & _). destruct (Lc_all _ _ _ _ _ C1) as (n1 & I1 & T1 & Q1), (Lc_all _ _ _ _ _ C2) as (n2 & I2 & T2 & Q2).
    cbn [fst snd] in *. exists n1, n2. split; [auto|]. split; [auto|]. apply ct1. split; [exact I1|]. split; [exact I2|]. apply takes_first; auto. now rewrite T1, Q1, T2, Q2. }
  induction 1 as [p1 p2 H|p1 t q q' p2 H Lq R IH]; [auto|]. destruct (K _ _ H) as (n1 & m & H1 & (Im & Tm & Qm) & C1). destruct IH as (m' & n2 & (Im' & Tm' & Qm') & H2 & C2). cbn [fst snd] in *.
  exists n1, n2. split; [exact H1|]. split; [exact H2|]. destruct (Nat.eq_dec q q') as [E|Ne].
  - assert (m = m') as -> by (apply Lc_inj; auto; congruence). exact (t_trans _ _ _ _ _ C1 C2).
  - apply t_trans with m; [exact C1|]. apply t_trans with m'; [|exact C2]. apply ct1. split; [exact Im|]. split; [exact Im'|]. left. split; [congruence|lia].
Qed.
Lemma upo_first n n' : upo (UC n) (UC n') -> first G n n'.
Proof.
  intros [Et Lt]. cbn [u_thr u_key] in *. left. split; [exact Et|]. destruct (Nat.lt_ge_cases (k_q n) (k_q n')) as [Q|Q]; [exact Q|]. exfalso. rewrite Et in Lt. pose proof (base_mono G (k_t n') _ _ Q). lia.
Qed.
Definition link (u : unit) (n : node) : Prop := UC n = u \/ upo u (UC n).
Definition link' (n : node) (u : unit) : Prop := UC n = u \/ upo (UC n) u.
Definition Zr (u u' : unit) : Prop := upo u u' \/ exists n n', In n Lc /\ In n' Lc /\ link u n /\ tcf n n' /\ link' n' u'.
Lemma upo_trans u v w : upo u v -> upo v w -> upo u w.
Proof. intros [E1 L1] [E2 L2]. split; [congruence|]. exact (Nat.lt_trans _ _ _ L1 L2). Qed.
Lemma link_link n u n' : In n Lc -> In n' Lc -> link' n u -> link u n' -> n = n' \/ on (first G) Lc n n'.
Proof.
  intros I I' [E|E] [E'|E'].
  - left. congruence.
  - right. split; [exact I|]. split; [exact I'|]. apply upo_first. now rewrite E.
  - right. split; [exact I|]. split; [exact I'|]. apply upo_first. now rewrite E'.
  - right. split; [exact I|]. split; [exact I'|]. apply upo_first. exact (upo_trans _ _ _ E E').
Qed.
Lemma Zr_trans u v w : Zr u v -> Zr v w -> Zr u w.
Proof.
  intros [P|(n & n' & I & I' & K & C & K')] [Q|(m & m' & J & J' & M & D & M')].
  - left. exact (upo_trans _ _ _ P Q).
  - right. exists m, m'. repeat (split; [assumption|]). split; [|auto]. destruct M as [E|M]; [right; now rewrite E|right; exact (upo_trans _ _ _ P M)].
  - right. exists n, n'. repeat (split; [assumption|]). destruct K' as [E|K']; [right; now rewrite E|right; exact (upo_trans _ _ _ K' Q)].
  - right. exists n, m'. repeat (split; [assumption|]). split; [|assumption]. apply t_trans with n'; [exact C|]. destruct (link_link n' v m I' J K' M) as [->|H]; [exact D|]. apply t_trans with m; [now apply ct1|exact D].
Qed.
Lemma Zr_irr u : ~ Zr u u.
Proof.
  intros [[_ P]|(n & n' & I & I' & K & C & K')]; [exact (Nat.lt_irrefl _ P)|]. apply (first_acyclic T G X Sm W Lc Lc_good Lc_all HCode n).
  destruct (link_link n' u n I' I K' K) as [<-|H]; [exact C|]. exact (t_trans _ _ _ _ _ C (ct1 _ _ _ H)).
Qed.
Notation HB := sc_hb_sub.
Lemma ufirst_Zr u u' : In u L -> In u' L -> ufirst u u' -> Zr u u'.
Proof.
  intros Iu Iu' [P|H]; [now left|]. destruct u as [n|x], u' as [n'|y]; [|destruct H|destruct H|].
  - right. exists n, n'. apply in_nodes in Iu. apply in_nodes in Iu'. split; [exact Iu|]. split; [exact Iu'|]. split; [now left|]. split; [apply ct1; split; auto|now left].
  - destruct (dfirst_bef T G Ie W X _ HB F x y (L_good _ Iu) (L_good _ Iu') H) as [P|[P|(t1 & q1 & t2 & q2 & [B1 B2] & R & [A1 A2])]]; [now left|now left|].
    destruct (reaches_first _ _ R) as (n1 & n2 & (I1 & T1 & Q1) & (I2 & T2 & Q2) & C). cbn [fst snd] in *. right. exists n1, n2. split; [exact I1|]. split; [exact I2|]. split; [|split; [exact C|]].
    + right. split; cbn [u_thr u_key]; [congruence|]. rewrite T1, Q1. exact B2.
    + right. split; cbn [u_thr u_key]; [congruence|]. pose proof Lc_good as GL. rewrite Forall_forall in GL. pose proof (good_range n2 (GL _ I2)) as Gr. rewrite T2, Q2 in *. exact (Nat.lt_le_trans _ _ _ Gr A2).
Qed.
Lemma ufirst_acyclic u : ~ clos_trans _ (on ufirst L) u u.
Proof.
  assert (forall u u', clos_trans _ (on ufirst L) u u' -> Zr u u') as K by (intros v v' H; induction H as [v v' (I & I' & H)|v v' v'' _ H1 _ H2]; [now apply ufirst_Zr|exact (Zr_trans _ _ _ H1 H2)]).
  intros H. exact (Zr_irr _ (K _ _ H)).
Qed.
Lemma ufirst_dec u u' : In u L -> In u' L -> ufirst u u' \/ ~ ufirst u u'.
Proof.
  intros Iu Iu'. unfold ufirst. assert (upo u u' \/ ~ upo u u') as [P|P] by (unfold upo; destruct (Nat.eq_dec (u_thr u) (u_thr u')), (lt_dec (u_key u) (u_key u')); tauto); [left; now left|].
  destruct u as [n|x], u' as [n'|y]; [|right; tauto|right; tauto|].
  - apply in_nodes in Iu. apply in_nodes in Iu'. destruct (first_dec T G X Sm W Lc Lc_good Lc_inj Lc_all HCode n n' Iu Iu'); tauto.
  - destruct (dfirst_dec T G Ie W X _ HB F x y (L_good _ Iu) (L_good _ Iu')); tauto.
Qed.
Lemma L_nodup : NoDup L.
Proof.
  apply (nodup_threads u_thr u_key). intros t. apply ss_nodup. destruct (Nat.lt_ge_cases t N) as [Lt|Ge]; [apply (HT t Lt)|]. rewrite filter_none; [constructor|]. eapply Forall_impl; [|exact HL]. intros u Hu. unfold of_thr. apply Nat.eqb_neq. cbv beta in Hu. lia.
Qed.
(* ---- the memory ---- *)
Definition uapply (m : mem) (u : unit) : mem := match u with UC n => apply1 m n | UM x => dapply m x end.
Definition umem (P : list unit) : mem := fold_left uapply P (g_init G).
Lemma umem_snoc P u : umem (P ++ [u]) = uapply (umem P) u.
Proof. unfold umem. now rewrite fold_left_app. Qed.
Lemma node_call n : In n Lc -> exists its, call_at G (k_t n) (k_q n) (k_c n) (k_r n) its.
Proof. intros I. pose proof Lc_good as GL. rewrite Forall_forall in GL. destruct (gd_call _ _ _ (GL n I)) as (its & C & _). now exists its. Qed.
Lemma umem_cell P n0 b : incl P L -> In n0 Lc -> in_cell (k_c n0) b -> umem P b = mem_after G (nodes P) b.
Proof.
  intros Ip I0 C. induction P as [|u P IH] using rev_ind; [reflexivity|]. rewrite umem_snoc, nodes_app. assert (incl P L) as Ip' by (intros z Z; apply Ip, in_or_app; now left). specialize (IH Ip'). destruct u as [n|x]; cbn [nodes flat_map app uapply].
  - rewrite mem_snoc. unfold apply1. now rewrite IH.
  - rewrite app_nil_r. destruct (dapply_spec (umem P) x b) as [(_ & Cx & _)|(_ & ->)]; [|exact IH]. exfalso. destruct (node_call n0 I0) as (its & C0).
    refine (df_cells _ _ F _ _ _ _ _ _ _ _ _ Cx C0 C). apply (L_good (UM x)). apply Ip, in_or_app. right. now left.
Qed.
Lemma umem_out P b : incl P L -> outside G b -> umem P b = dmem G (datas P) b.
Proof.
  intros Ip Ob. induction P as [|u P IH] using rev_ind; [reflexivity|]. rewrite umem_snoc, datas_app. assert (incl P L) as Ip' by (intros z Z; apply Ip, in_or_app; now left). specialize (IH Ip'). destruct u as [n|x]; cbn [datas flat_map app uapply].
  - rewrite app_nil_r. unfold apply1. destruct (in_cellb (k_c n) b) eqn:E; [|exact IH]. exfalso. apply in_cellb_spec in E. assert (In n Lc) as I by (apply in_nodes, Ip, in_or_app; right; now left).
    destruct (node_call n I) as (its & C0). exact (Ob _ _ _ _ _ C0 E).
  - rewrite dmem_snoc. unfold dapply. now rewrite IH.
Qed.
Section S.
Context (S : list unit) (Pm : Permutation L S) (So : StronglySorted (fun a b => ~ ufirst b a) S).
Lemma Sc_perm : Permutation Lc (nodes S).
Proof. apply Permutation_flat_map. exact Pm. Qed.
Lemma Sc_sorted : StronglySorted (fun a b => ~ first G b a) (nodes S).
Proof. refine (ss_weaken _ _ _ _ (nodes_sorted _ _ So)). intros a b _ _ H Q. apply H. now right. Qed.
Lemma Sd_sorted : StronglySorted (fun a b => ~ dfirst G b a) (datas S).
Proof. refine (ss_weaken _ _ _ _ (datas_sorted _ _ So)). intros a b _ _ H Q. apply H. now right. Qed.
Lemma Sd_all x v : In (x, v) (datas S) <-> plain_at G x v.
Proof.
  rewrite Ld_all. assert (Permutation (datas L) (datas S)) as Q by (apply Permutation_flat_map; exact Pm). split; apply Permutation_in; [now apply Permutation_sym|exact Q].
Qed.
Lemma Sc_nodup : NoDup (nodes S).
Proof.
  pose proof (Permutation_NoDup Pm L_nodup) as Nd. clear - Nd. induction Nd as [|[n|x] l H Nd IH]; [constructor| |exact IH]. cbn. constructor; [|exact IH]. intros I. apply H. now apply in_nodes.
Qed.
Lemma u_step P u Q : S = P ++ u :: Q -> act_step T (u_act u) (umem P) (umem (P ++ [u])).
Proof.
  intros E. assert (incl S L) as Is by (intros z; apply Permutation_in; now apply Permutation_sym). assert (incl P L) as Ip by (intros z Z; apply Is; rewrite E; apply in_or_app; now left).
  assert (In u L) as Iu by (apply Is; rewrite E; apply in_or_app; right; now left). assert (incl (P ++ [u]) L) as Ip' by (intros z Z; apply in_app_or in Z; destruct Z as [Z|[<-|[]]]; auto).
  destruct u as [n|x]; cbn [u_act act_step].
  - assert (In n Lc) as In_ by (now apply in_nodes).
    pose proof (replay_step T G X Sm W Lc Lc_good Lc_inj Lc_all HCode Lc_cells (nodes S) Sc_perm Sc_sorted (nodes P) n (nodes Q) ltac:(rewrite E, nodes_app; reflexivity) Sc_nodup) as D.
    apply (done_at T (k_c n) _ _ _ _ _ D).
    + right. intros b C. exact (umem_cell P n b Ip In_ C).
    + intros b C. rewrite (umem_cell (P ++ [UC n]) n b Ip' In_ C), nodes_app. reflexivity.
    + intros b C. rewrite umem_snoc. cbn [uapply]. unfold apply1. destruct (in_cellb (k_c n) b) eqn:Z; [exfalso; apply C; now apply in_cellb_spec|reflexivity].
  - pose proof (dstep T G Ie W X _ HB F (datas S) Sd_all Sd_sorted (datas P) x (datas Q) ltac:(rewrite E, datas_app; reflexivity)) as D. unfold plain_step in *. rewrite umem_snoc. cbn [uapply]. destruct (e_w (snd x)) eqn:Wx.
    + intros b. destruct (dapply_spec (umem P) x b) as [(_ & C & ->)|(Nn & ->)]; split; auto; [contradiction|intros C; destruct Nn; auto].
    + split; [|intros b; destruct (dapply_spec (umem P) x b) as [(Q1 & _)|(_ & ->)]; [congruence|reflexivity]]. intros b C. rewrite (umem_out P b Ip (d_out G _ F _ _ _ (L_good _ Iu) C)). now apply D.
Qed.
Lemma u_final b : ((forall w, ~ writes_b G w b) -> umem S b = g_init G b) /\
  (forall w v, ev_at G w v -> e_w v = true -> covers v b -> (forall w', ~ g_co G b w w') -> umem S b = e_b v b).
Proof.
  assert (incl S L) as Is by (intros z; apply Permutation_in; now apply Permutation_sym).
  assert ((exists n0, In n0 Lc /\ in_cell (k_c n0) b) \/ ~ exists n0, In n0 Lc /\ in_cell (k_c n0) b) as [(n0 & I0 & C0)|No].
  { clear. induction Lc as [|n l IH]; [right; intros (n & [] & _)|]. destruct (in_cellb (k_c n) b) eqn:E; [left; exists n; split; [now left|now apply in_cellb_spec]|].
    destruct IH as [(n0 & I & C)|No]; [left; exists n0; split; [now right|exact C]|]. right. intros (n0 & [<-|I] & C); [apply in_cellb_spec in C; congruence|apply No; eauto]. }
  - rewrite (umem_cell S n0 b Is I0 C0). exact (final_value T G X Sm W Lc Lc_good Lc_inj Lc_all HCode Lc_cells (nodes S) Sc_perm Sc_sorted b n0 I0 C0).
  - assert (outside G b) as Ob. { intros t q c r its C Ic. destruct (Lc_all _ _ _ _ _ C) as (n & I & Et & Eq). apply No. exists n. split; [exact I|]. destruct (node_call n I) as (its' & C'). unfold call_at in *. rewrite Et, Eq, C in C'. injection C' as <- _ _. exact Ic. }
    rewrite (umem_out S b Is Ob). exact (dfinal T G Ie W X _ F (datas S) Sd_all Sd_sorted b Ob).
Qed.
End S.
End L.
End P.

(* ---- theorem ---- *)
(* calls and accesses together are interleaved: each call does at once what the library promises, each other read finds what is in memory;
   the interleaving leaves in memory what the last writes wrote *)
Theorem C40_drf_sc T G : t_ie T = None -> t_wf T -> execution T G -> sc_client G -> race_free G (sc_happens_before G) ->
  exists mf, merged (act_step T) (fun t => acts (g_thr G t)) (g_init G) mf /\
    forall b, ((forall w, ~ writes_b G w b) -> mf b = g_init G b) /\
      (forall w v, ev_at G w v -> e_w v = true -> covers v b -> (forall w', ~ g_co G b w w') -> mf b = e_b v b).
Proof.
  intros Ie W X Cl F. destruct (df_fin _ _ F) as (N & HN). destruct (collect u_thr (u_list T G) N (fun t _ => unit_list T G Ie W X Cl t)) as (L & HL & HT).
  destruct (topo (ufirst G) (length L) L eq_refl) as (S & Pm & So).
  { intros x y Ix Iy. exact (ufirst_dec T G Ie W X Cl F L N HN HL HT x y Ix Iy). }
  { exact (ufirst_acyclic T G Ie W X Cl F L N HN HL HT). }
  exists (umem G S). split.
  - pose proof (mg_replay u_thr u_act (act_step T) (umem G) S (fun P u Q E => u_step T G Ie W X Cl F L N HN HL HT S Pm So P u Q E) S [] eq_refl) as H.
    refine (mg_ext _ _ _ _ _ _ H). intros t. rewrite (same_threads u_thr (u_key G) (ufirst G) L S); auto.
    + destruct (Nat.lt_ge_cases t N) as [Lt|Ge]; [now destruct (HT t Lt) as (E & _)|]. rewrite (HN t Ge), filter_none; [reflexivity|]. eapply Forall_impl; [|exact HL]. intros u Hu. unfold of_thr. apply Nat.eqb_neq. cbv beta in Hu. lia.
    + intros a b E Lt. left. split; auto.
    + intros t'. destruct (Nat.lt_ge_cases t' N) as [Lt|Ge]; [now destruct (HT t' Lt) as (_ & _ & Q & _)|]. rewrite filter_none; [constructor|]. eapply Forall_impl; [|exact HL]. intros u Hu. unfold of_thr. apply Nat.eqb_neq. cbv beta in Hu. lia.
  - intros b. exact (u_final T G Ie W X Cl F L N HN HL HT S Pm So b).
Qed.
(* with the specification of every call, if there is no compare_exchange of 4 bytes on the 64-bit targets of C04_riscv64_refuted, C04_loongarch64_refuted, C04_mips64_refuted *)
Theorem C40_sequential T G : t_ie T = None -> t_wf T -> execution T G -> sc_client G -> race_free G (sc_happens_before G) ->
  (forall t q n s f a x y r its, call_at G t q (OCas n s f a x y) r its -> cas_upper_bits T n = false) ->
  exists mf, merged (act_spec (t_e T)) (fun t => acts (g_thr G t)) (g_init G) mf.
Proof.
  intros Ie W X C F H. destruct (C40_drf_sc T G Ie W X C F) as (mf & I & _). exists mf. apply (mg_weaken _ _ _ _ _ I). intros t [c r|v] m m' J D; [|exact D]. cbn [act_step act_spec] in *.
  assert (In (c, r) (calls (g_thr G t))) as J'.
  { unfold acts in J. apply in_flat_map in J. destruct J as (s & Is & J). unfold calls. apply in_flat_map. exists s. split; [exact Is|]. destruct s as [c' r' its|its]; [destruct J as [J|[]]; injection J as -> ->; now left|].
    apply in_map_iff in J. destruct J as (v & Q & _). discriminate Q. }
  destruct (in_calls _ _ _ J') as (q & its & Q). unfold op_done in D. destruct c, r; auto. rewrite (H _ _ _ _ _ _ _ _ _ _ Q) in D. exact D.
Qed.
