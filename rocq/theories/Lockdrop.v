(* C42: a program that synchronizes by locks, without one access and what must come after it.  Proof machinery. *)
From Verif Require Import SeqCst Prop_order Replay Prop_sc CallLink All_atomic Weak Prop_mp Prop_hb Merge Prop_drf Prop_drfsc Prop_lock Prop_locksc.
From Coq Require Import Permutation Sorted Relations.Operators_Properties Operators_Properties.

(* ---- lists ---- *)
Lemma filter_filter {A} (f g : A -> bool) l : filter f (filter g l) = filter g (filter f l).
Proof. induction l as [|a l IH]; [reflexivity|]. cbn. destruct (g a) eqn:Ga, (f a) eqn:Fa; cbn; rewrite ?Ga, ?Fa, IH; reflexivity. Qed.
Lemma filter_part {A} (R : A -> A -> Prop) (g : A -> bool) l : StronglySorted R l -> (forall a b, In a l -> In b l -> R a b -> g a = true -> g b = true) -> l = filter (fun x => negb (g x)) l ++ filter g l.
Proof.
  induction 1 as [|a l S IH F]; intros H; [reflexivity|]. cbn. rewrite Forall_forall in F. destruct (g a) eqn:Ga; cbn.
  - assert (forall b, In b l -> g b = true) as K by (intros b Ib; apply (H a b); [now left|now right|exact (F b Ib)|exact Ga]). rewrite filter_none; [cbn; f_equal|apply Forall_forall; intros b Ib; now rewrite K].
    clear - K. induction l as [|b l IH]; [reflexivity|]. cbn. rewrite (K b (or_introl eq_refl)). f_equal. apply IH. intros c Ic. apply K. now right.
  - f_equal. apply IH. intros x y Ix Iy. apply H; now right.
Qed.
Lemma exists_dec {A} (p : A -> Prop) l : (forall x, In x l -> p x \/ ~ p x) -> (exists x, In x l /\ p x) \/ ~ exists x, In x l /\ p x.
Proof.
  induction l as [|a l IH]; intros D; [right; intros (x & [] & _)|]. destruct IH as [(x & I & H)|N]; [intros x I; apply D; now right|left; exists x; split; [now right|exact H]|].
  destruct (D a (or_introl eq_refl)) as [H|H]; [left; exists a; split; [now left|exact H]|]. right. intros (x & [<-|I] & Q); [exact (H Q)|apply N; eauto].
Qed.

Section P.
Context (T : arch) (G : graph) (Lk : Z -> Z -> Prop) (Ie : t_ie T = None) (W : t_wf T) (X : execution T G) (Ls : lock_system T G Lk) (F : race_free G (happens_before G)).
Context (L : list lunit) (N : nat) (HN : forall t, (N <= t)%nat -> g_thr G t = []) (HL : Forall (fun u => (l_thr u < N)%nat) L) (HT : forall t, (t < N)%nat -> l_list G t (filter (of_thr l_thr t) L)).
Context (S : list lunit) (Pm : Permutation L S) (So : StronglySorted (fun a b => ~ lufirst T G b a) S).
Context (d : eid) (vd : ev) (Hd : plain_at G d vd).
Notation D := (LM (d, vd)).
Notation lufirst := (lufirst T G).
Notation l_good := (l_good G).
Notation l_key := (l_key G).
Notation lhb := (lhb G).
Notation Lgood := (l_L_good G L N HL HT).
Lemma S_L u : In u S <-> In u L.
Proof. split; apply Permutation_in; [now apply Permutation_sym|exact Pm]. Qed.
Lemma L_d : In D L.
Proof. apply in_ldatas. apply (L_datas G L N HN HL HT). exact Hd. Qed.
Lemma S_thr t : filter (of_thr l_thr t) S = filter (of_thr l_thr t) L.
Proof.
  apply (same_threads l_thr l_key lufirst L S); auto.
  - intros a b E Lt. left. split; auto.
  - intros t'. destruct (Nat.lt_ge_cases t' N) as [Lt|Ge]; [now destruct (HT t' Lt) as (_ & _ & Q & _)|]. rewrite filter_none; [constructor|]. eapply Forall_impl; [|exact HL]. intros u Hu. unfold of_thr. apply Nat.eqb_neq. cbv beta in Hu. lia.
Qed.
Lemma S_sorted t : StronglySorted (fun a b => (l_key a < l_key b)%nat) (filter (of_thr l_thr t) S).
Proof.
  rewrite S_thr. destruct (Nat.lt_ge_cases t N) as [Lt|Ge]; [now destruct (HT t Lt) as (_ & _ & Q & _)|]. rewrite filter_none; [constructor|]. eapply Forall_impl; [|exact HL]. intros u Hu. unfold of_thr. apply Nat.eqb_neq. cbv beta in Hu. lia.
Qed.
Lemma S_acts t : acts (g_thr G t) = map l_act (filter (of_thr l_thr t) S).
Proof.
  rewrite S_thr. destruct (Nat.lt_ge_cases t N) as [Lt|Ge]; [now destruct (HT t Lt) as (E & _)|]. rewrite (HN t Ge), filter_none; [reflexivity|]. eapply Forall_impl; [|exact HL]. intros u Hu. unfold of_thr. apply Nat.eqb_neq. cbv beta in Hu. lia.
Qed.
Definition lid (u : lunit) : eid := (l_thr u, l_key u).
Lemma lid_inj u v : In u S -> In v S -> lid u = lid v -> u = v.
Proof.
  intros Iu Iv E. injection E as Et Ek. apply (ss_inj l_key (filter (of_thr l_thr (l_thr u)) S) u v (S_sorted _)); [| |exact Ek]; apply filter_In; (split; [assumption|]); unfold of_thr; apply Nat.eqb_eq; congruence.
Qed.
(* ---- what must come after [d] ---- *)
Definition dep (u : lunit) : Prop := u = D \/ clos_trans _ (on lufirst L) D u.
Lemma dep_in u : dep u -> In u L.
Proof. intros [->|H]; [exact L_d|]. apply clos_trans_tn1 in H. destruct H as [u (_ & I & _)|v u (_ & I & _) _]; exact I. Qed.
Lemma dep_step u v : dep u -> In v L -> lufirst u v -> dep v.
Proof.
  intros Du Iv H. assert (on lufirst L u v) as O by (split; [exact (dep_in u Du)|split; [exact Iv|exact H]]). destruct Du as [->|Du]; right; [now apply Relation_Operators.t_step|exact (Relation_Operators.t_trans _ _ _ _ _ Du (Relation_Operators.t_step _ _ _ _ O))].
Qed.
Lemma dep_last u : dep u -> u = D \/ exists v, dep v /\ In v L /\ lufirst v u.
Proof.
  intros [->|H]; [now left|right]. apply clos_trans_tn1 in H. destruct H as [u (I & _ & Q)|v u (I & _ & Q) H]; [exists D; split; [now left|auto]|]. exists v. split; [right; now apply clos_tn1_trans|auto].
Qed.
Lemma dep_lhb u : dep u -> u = D \/ lhb D u.
Proof.
  intros [->|H]; [now left|right]. induction H as [v v' (I & I' & H)|v v' v'' _ H1 _ H2]; [|exact (lhb_trans T G Ie W X _ _ _ H1 H2)].
  exact (lufirst_lhb T G Lk Ie W X Ls F _ _ (Lgood _ I) (Lgood _ I') H).
Qed.
Lemma dep_dec P : forall Q, S = P ++ Q -> exists g, forall u, In u P -> g (lid u) = true <-> dep u.
Proof.
  induction P as [|u P IH] using rev_ind; intros Q E; [exists (fun _ => false); intros u []|]. rewrite <- app_assoc in E. cbn in E. destruct (IH _ E) as (g & Hg).
  assert (In u S) as Iu by (rewrite E; apply in_or_app; right; now left). assert (forall v, In v P -> In v S) as Ip by (intros v I; rewrite E; apply in_or_app; now left).
  assert (dep u \/ ~ dep u) as Dc.
  { destruct (eid_dec (lid u) (lid D)) as [Q0|Ne]; [left; left; apply lid_inj; auto; apply S_L; exact L_d|].
    destruct (exists_dec (fun v => g (lid v) = true /\ lufirst v u) P) as [(v & Iv & Gv & Fv)|Nn].
    - intros v Iv. destruct (g (lid v)); [|right; intros [Z _]; discriminate Z]. destruct (lufirst_dec T G Lk Ie W X Ls F v u) as [Y|Y]; [apply Lgood, S_L; auto|apply Lgood, S_L; auto|left; auto|right; tauto].
    - left. apply (dep_step v); [now apply Hg|now apply S_L|exact Fv].
    - right. intros Du. destruct (dep_last u Du) as [->|(v & Dv & Iv & Fv)]; [now apply Ne|]. apply Nn. exists v. assert (In v P) as J; [|split; [exact J|split; [now apply Hg|exact Fv]]].
      apply S_L in Iv. rewrite E in Iv. apply in_app_or in Iv. destruct Iv as [Iv|[<-|Iv]]; [exact Iv| |].
      + exfalso. apply (lufirst_acyclic T G Lk Ie W X Ls F L N HL HT u). apply Relation_Operators.t_step. split; [now apply S_L|split; [now apply S_L|exact Fv]].
      + exfalso. pose proof So as So'. rewrite E in So'. destruct (ss_app _ _ _ So') as (_ & K & _). apply StronglySorted_inv in K. destruct K as [_ K]. rewrite Forall_forall in K. exact (K v Iv Fv). }
  assert (exists z : bool, z = true <-> dep u) as (z & Hz) by (destruct Dc; [exists true|exists false]; intuition discriminate).
  exists (fun x => if eid_dec x (lid u) then z else g x). intros v Iv. destruct (eid_dec (lid v) (lid u)) as [Q0|Ne].
  - rewrite (lid_inj v u); auto. apply in_app_or in Iv. destruct Iv as [Iv|[<-|[]]]; auto.
  - apply in_app_or in Iv. destruct Iv as [Iv|[<-|[]]]; [now apply Hg|now destruct Ne].
Qed.
Lemma lock_without te : te <> fst d -> (exists t1 q1 q2, before G d t1 q1 /\ reaches G (t1, q1) (te, q2)) \/
  exists H mf, merged (lock_step (t_e T)) H (g_init G) mf /\ H te = acts (g_thr G te) /\ (exists h, acts (g_thr G (fst d)) = H (fst d) ++ AMem vd :: h) /\ forall t, exists h, acts (g_thr G t) = H t ++ h.
Proof.
  intros Ne. destruct (dep_dec S [] ltac:(now rewrite app_nil_r)) as (g & Hg). set (p := fun u => g (lid u)). set (K := filter (fun u => negb (p u)) S).
  assert (forall t, filter (of_thr l_thr t) S = filter (of_thr l_thr t) K ++ filter p (filter (of_thr l_thr t) S)) as Sp.
  { intros t. unfold K. rewrite (filter_filter (of_thr l_thr t)). apply (filter_part (fun a b => (l_key a < l_key b)%nat) p); [apply S_sorted|]. intros a b Ia Ib Lt Pa. apply filter_In in Ia. apply filter_In in Ib. destruct Ia as [Ia Ta], Ib as [Ib Tb].
    apply Nat.eqb_eq in Ta. apply Nat.eqb_eq in Tb. apply Hg; [exact Ib|]. apply (dep_step a); [now apply Hg|now apply S_L|]. left. split; [congruence|exact Lt]. }
  destruct (exists_dec (fun u => p u = true /\ l_thr u = te) S) as [(u & Iu & Pu & Tu)|Nn].
  { intros u _. destruct (p u); [|right; intros [Z _]; discriminate Z]. destruct (Nat.eq_dec (l_thr u) te); [left; auto|right; tauto]. }
  - left. apply (Hg u Iu) in Pu. destruct (dep_lhb u Pu) as [->|[[Et _]|(q1 & q2 & A & R & _)]]; [exfalso; apply Ne; symmetry; exact Tu|exfalso; apply Ne; cbn [l_thr fst] in Et; congruence|].
    rewrite Tu in R. cbn [l_thr fst Prop_locksc.l_key] in A, R. exists (fst d), q1, q2. split; [|exact R]. split; [reflexivity|].
    pose proof (reach_ends T G Ie W X _ _ R) as Ge. cbn [fst snd] in Ge. destruct (Nat.eq_dec (snd d) (base G (fst d) q1)) as [Ed|]; [exfalso|lia].
    assert (exists c r its, call_at G (fst d) q1 c r its) as (c & r & its & C).
    { clear - R. remember (fst d, q1) as p1 eqn:E1. assert (forall p2, syncs G p1 p2 -> exists c r its, call_at G (fst d) q1 c r its) as Z by (intros p2 (c1 & r1 & its1 & c2 & r2 & its2 & w & r & C1 & _); rewrite E1 in C1; eauto). destruct R as [a b Q|a t q q' b Q _ _]; exact (Z _ Q). }
    destruct (seg_split G _ _ _ C) as (_ & _ & _ & _ & B). cbn [seg_its] in B. assert (exists v, at_ its 0 v) as (v & A0).
    { destruct its as [|i its]; [rewrite B in Ge; cbn [length] in Ge; lia|]. pose proof (plain_ev G _ _ Hd) as Ev. destruct (seg_split G _ _ _ C) as (pre & post & E & Lp & _). unfold ev_at, at_ in Ev. rewrite E, Ed, <- Lp, nth_error_app2, Nat.sub_diag in Ev by lia. cbn in Ev. exists vd. exact Ev. }
    refine (call_not_plain G _ _ _ _ _ 0 v d vd C A0 _ Hd). rewrite Nat.add_0_r, <- Ed. now destruct d.
  - right. exists (fun t => map l_act (filter (of_thr l_thr t) K)), (lmem T G K). split; [|split; [|split]].
    + refine (mg_replay l_thr l_act (lock_step (t_e T)) (lmem T G) K _ K [] eq_refl). apply (l_step_c T G Lk Ie W X Ls F L N HN HL HT K).
      * intros u I. apply filter_In in I. apply S_L, I.
      * apply NoDup_filter. exact (Permutation_NoDup Pm (l_L_nodup G L N HL HT)).
      * intros u v Iu Iv Q. apply filter_In in Iv. destruct Iv as [Iv Pv]. apply filter_In. split; [now apply S_L|]. destruct (p u) eqn:Pu; [|reflexivity]. exfalso. apply Hg in Pu; [|now apply S_L].
        assert (p v = true) as Q1 by (apply Hg; [exact Iv|]; apply (dep_step u); [exact Pu|now apply S_L|exact Q]). now rewrite Q1 in Pv.
      * exact (ss_filter _ _ _ So).
    + rewrite S_acts, (Sp te). rewrite (filter_none p), app_nil_r; [reflexivity|]. apply Forall_forall. intros u I. apply filter_In in I. destruct I as [I Et]. apply Nat.eqb_eq in Et. destruct (p u) eqn:Pu; [|reflexivity]. exfalso. apply Nn. eauto.
    + rewrite S_acts, (Sp (fst d)), map_app. set (M := filter p (filter (of_thr l_thr (fst d)) S)). assert (In D M) as ID.
      { apply filter_In. split; [apply filter_In; split; [apply S_L, L_d|apply Nat.eqb_refl]|]. apply Hg; [apply S_L, L_d|now left]. }
      assert (forall u, In u M -> u = D \/ (l_key D < l_key u)%nat) as Mn.
      { intros u I. apply filter_In in I. destruct I as [I Pu]. apply filter_In in I. destruct I as [I Et]. apply Nat.eqb_eq in Et. apply (Hg u I) in Pu. destruct (dep_lhb u Pu) as [->|[[_ Q]|(q1 & q2 & A & R & B)]]; [now left|now right|right].
        rewrite Et in R. cbn [l_thr fst] in R, A, B. pose proof (reach_irr T G Ie W X _ _ _ R) as Lt. pose proof (reach_ends T G Ie W X _ _ R) as Ge. cbn [fst snd] in Ge. rewrite Et in B. pose proof (base_mono G (fst d) (Datatypes.S q1) q2 Lt). lia. }
      assert (StronglySorted (fun a b => (l_key a < l_key b)%nat) M) as Ms by (apply ss_filter, S_sorted). destruct M as [|m M]; [destruct ID|]. exists (map l_act M). cbn [map]. f_equal. f_equal.
      destruct (Mn m (or_introl eq_refl)) as [->|Lt]; [reflexivity|exfalso]. apply StronglySorted_inv in Ms. destruct Ms as [_ Ms]. rewrite Forall_forall in Ms. destruct ID as [->|ID]; [lia|]. specialize (Ms _ ID). lia.
    + intros t. exists (map l_act (filter p (filter (of_thr l_thr t) S))). rewrite <- map_app, <- Sp. apply S_acts.
Qed.
End P.
Lemma lock_drop T G Lk : t_ie T = None -> t_wf T -> execution T G -> lock_system T G Lk -> race_free G (happens_before G) -> forall d vd te, plain_at G d vd -> te <> fst d ->
  (exists t1 q1 q2, before G d t1 q1 /\ reaches G (t1, q1) (te, q2)) \/
  exists H mf, merged (lock_step (t_e T)) H (g_init G) mf /\ H te = acts (g_thr G te) /\ (exists h, acts (g_thr G (fst d)) = H (fst d) ++ AMem vd :: h) /\ forall t, exists h, acts (g_thr G t) = H t ++ h.
Proof.
  intros Ie W X Ls F d vd te Hd Ne. destruct (df_fin _ _ F) as (N & HN). destruct (collect l_thr (l_list G) N (fun t _ => lunit_list T G Ie W X t)) as (L & HL & HT).
  destruct (topo (lufirst T G) (length L) L eq_refl) as (S & Pm & So).
  { intros x y Ix Iy. apply (lufirst_dec T G Lk Ie W X Ls F); [exact (l_L_good G L N HL HT x Ix)|exact (l_L_good G L N HL HT y Iy)]. }
  { exact (lufirst_acyclic T G Lk Ie W X Ls F L N HL HT). }
  exact (lock_without T G Lk Ie W X Ls F L N HN HL HT S Pm So d vd Hd te Ne).
Qed.
