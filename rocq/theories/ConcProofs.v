From Verif Require Import Steps.
From Verif Require Import Conc All_atomic All_progress ApiProofs.

Lemma run_snoc e p o : forall os s0 t s i s' m', run e p os s0 = Ran t s -> nth_error p (pc s) = Some i -> exec e p i o s = Some (s', m') ->
  run e p (os ++ [o]) s0 = Ran (t ++ [(o_mem o, m')]) s'.
Proof.
  induction os as [|o1 os IH]; intros s0 t s i s' m' R N X; cbn [run app] in *.
  - injection R as <- <-. rewrite N, X. reflexivity.
  - destruct (nth_error p (pc s0)) as [i0|] eqn:N0; [|injection R as <- <-; congruence].
    destruct (exec e p i0 o1 s0) as [[s1 m1]|]; [|discriminate].
    destruct (run e p os s1) as [t1 sf|] eqn:R1; [|discriminate]. injection R as <- <-.
    rewrite (IH s1 t1 sf i s' m' R1 N X). reflexivity.
Qed.

Definition eabout (k : nat) (e : event) : bool :=
  match e with EInv _ k' _ | EStep k' _ | ERet k' _ => Nat.eqb k k' | EPlain _ _ => false end.
Definition proj (k : nat) (E : list event) := filter (eabout k) E.
Definition steps_of (k : nat) (E : list event) : trace := flat_map (fun e => match e with EStep k' st => if Nat.eqb k k' then [st] else [] | _ => [] end) E.
Definition runs (T : arch) (c : op) (f : fn rval) (t : trace) (s : tst) : Prop :=
  exists c0, c = as_done T c0 /\ op_args T c0 /\ op_pre T c0 = Ret tt /\ op_impl T c0 = Impl f /\
  exists os s0, wf_oracles os /\ pc s0 = O /\ f_in f (rf s0) /\ run (t_e T) (f_prog f) os s0 = Ran t s.
Definition flying (T : arch) (k : nat) (E : list event) (t : nat) (c : op) (f : fn rval) (s : tst) : Prop :=
  exists tr, proj k E = EInv t k c :: map (EStep k) tr /\ runs T c f tr s.
Definition finished (T : arch) (k : nat) (E : list event) : Prop :=
  exists t c f s tr r, proj k E = EInv t k c :: map (EStep k) tr ++ [ERet k r] /\ runs T c f tr s /\ at_exit (f_prog f) s /\ f_out f (rf s) = Some r.
Fixpoint chain (m : mem) (E : list event) (m' : mem) : Prop :=
  match E with
  | [] => m = m'
  | EStep _ (a, b) :: E' | EPlain a b :: E' => m = a /\ chain b E' m'
  | _ :: E' => chain m E' m'
  end.
Record inv (T : arch) (m0 : mem) (E : list event) (S : sys) : Prop := {
  i_wf : wf_mem (s_mem S);
  i_chain : chain m0 E (s_mem S);
  i_new : forall k, (s_next S <= k)%nat -> proj k E = [];
  i_fly : forall t k c f s, s_thr S t = Some (mkfly k c f s) -> (k < s_next S)%nat /\ flying T k E t c f s;
  i_uniq : forall t t' x y, s_thr S t = Some x -> s_thr S t' = Some y -> k_id x = k_id y -> t = t';
  i_old : forall k, (k < s_next S)%nat -> (exists t c f s, s_thr S t = Some (mkfly k c f s)) \/ finished T k E }.
Lemma proj_snoc k E e : proj k (E ++ [e]) = proj k E ++ (if eabout k e then [e] else []).
Proof. unfold proj. rewrite filter_app. cbn [filter]. destruct (eabout k e); auto. Qed.
Lemma chain_snoc E : forall m m' e m'', chain m E m' -> chain m' [e] m'' -> chain m (E ++ [e]) m''.
Proof. induction E as [|x E IH]; intros m m' e m'' H H'; cbn [chain app] in *; [now subst|]. destruct x as [| k [a b] | |]; try destruct H as [<- H]; try split; eauto. Qed.
Lemma setthr_same f t v : setthr f t v t = v. Proof. unfold setthr. now rewrite Nat.eqb_refl. Qed.
Lemma setthr_other f t v x : x <> t -> setthr f t v x = f x. Proof. intros H. unfold setthr. destruct (Nat.eqb_spec x t); [contradiction|auto]. Qed.
Lemma finished_other T k E e : eabout k e = false -> finished T k E -> finished T k (E ++ [e]).
Proof. intros H F. unfold finished in *. rewrite proj_snoc, H, app_nil_r. exact F. Qed.
Lemma flying_other T k E e t c f s : eabout k e = false -> flying T k E t c f s -> flying T k (E ++ [e]) t c f s.
Proof. intros H F. unfold flying in *. rewrite proj_snoc, H, app_nil_r. exact F. Qed.

Ltac thr x t := destruct (Nat.eq_dec x t) as [->|]; [rewrite setthr_same in *|rewrite setthr_other in * by assumption].
Lemma inv_step T m0 E S e S' : t_ie T = None -> inv T m0 E S -> step T S e S' -> inv T m0 (E ++ [e]) S'.
Proof.
  intros HT [IW IC IN IF IU IO] H.
  inversion H as [? t c f s0 Ht Ha Hc Hi Hp Hin | ? t k c f s i ok j s' m' Ht Hi HX | ? t k c f s r Ht He Ho | ? m' Hw]; subst.
  - constructor; cbn [s_mem s_thr s_next].
    + exact IW.
    + eapply chain_snoc; [exact IC|]. cbn. reflexivity.
    + intros k Hk. rewrite proj_snoc, IN by lia. cbn [eabout]. destruct (Nat.eqb_spec k (s_next S)); [lia|reflexivity].
    + intros t' k' c' f' s' H'. thr t' t.
      * injection H' as <- <- <- <-. split; [lia|]. exists []. rewrite proj_snoc, IN by lia. cbn [eabout map app]. rewrite Nat.eqb_refl. split; [reflexivity|].
        exists c. split; [reflexivity|]. repeat (split; [assumption|]). exists [], s0. repeat split; auto. constructor.
      * destruct (IF _ _ _ _ _ H') as [L F]. split; [lia|]. apply flying_other; auto. cbn. apply Nat.eqb_neq. lia.
    + intros t1 t2 x y H1 H2 HE. thr t1 t; thr t2 t; auto.
      * injection H1 as <-. cbn [k_id] in HE. destruct y as [ky cy fy sy]. destruct (IF _ _ _ _ _ H2) as [L _]. cbn in HE. lia.
      * injection H2 as <-. cbn [k_id] in HE. destruct x as [ky cy fy sy]. destruct (IF _ _ _ _ _ H1) as [L _]. cbn in HE. lia.
      * eapply IU; eauto.
    + intros k Hk. destruct (Nat.eq_dec k (s_next S)) as [->|].
      * left. exists t, (as_done T c), f, s0. apply setthr_same.
      * destruct (IO k) as [(t' & c' & f' & s' & H')|F]; [lia| |].
        -- left. exists t', c', f', s'. rewrite setthr_other; auto. intros ->. congruence.
        -- right. apply finished_other; auto. cbn. apply Nat.eqb_neq. lia.
  - destruct (IF _ _ _ _ _ Ht) as [Lk (tr & Pk & R)]. constructor; cbn [s_mem s_thr s_next].
    + eapply exec_wf; [|exact HX]. exact IW.
    + eapply chain_snoc; [exact IC|]. cbn. auto.
    + intros k' Hk. rewrite proj_snoc, IN by lia. cbn [eabout]. destruct (Nat.eqb_spec k' k); [lia|reflexivity].
    + intros t' k' c' f' x H'. thr t' t.
      * injection H' as <- <- <- <-. split; [lia|]. exists (tr ++ [(s_mem S, m')]). rewrite proj_snoc, Pk. cbn [eabout]. rewrite Nat.eqb_refl, map_app. split; [reflexivity|].
        destruct R as (c0 & A1 & A2 & A3 & A4 & os & s0 & W & P0 & I0 & R). exists c0. repeat (split; [assumption|]).
        exists (os ++ [mkor (s_mem S) ok j]), s0. split; [apply Forall_app; split; [exact W|constructor; [exact IW|constructor]]|]. repeat (split; [assumption|]).
        exact (run_snoc _ _ (mkor (s_mem S) ok j) os s0 tr s i s' m' R Hi HX).
      * destruct (IF _ _ _ _ _ H') as [L F]. split; [lia|]. apply flying_other; auto. cbn. apply Nat.eqb_neq. intros ->. 
        pose proof (IU _ _ _ _ H' Ht eq_refl). contradiction.
    + intros t1 t2 x y H1 H2 HE. thr t1 t; thr t2 t; auto.
      * injection H1 as <-. exact (IU _ _ _ _ Ht H2 HE).
      * injection H2 as <-. exact (IU _ _ _ _ H1 Ht HE).
      * eapply IU; eauto.
    + intros k' Hk. destruct (Nat.eq_dec k' k) as [->|].
      * left. exists t, c, f, s'. apply setthr_same.
      * destruct (IO k' Hk) as [(t' & c' & f' & x & H')|F].
        -- left. exists t', c', f', x. rewrite setthr_other; auto. intros ->. congruence.
        -- right. apply finished_other; auto. cbn. apply Nat.eqb_neq. lia.
  - destruct (IF _ _ _ _ _ Ht) as [Lk (tr & Pk & R)]. constructor; cbn [s_mem s_thr s_next].
    + exact IW.
    + eapply chain_snoc; [exact IC|]. cbn. auto.
    + intros k' Hk. rewrite proj_snoc, IN by lia. cbn [eabout]. destruct (Nat.eqb_spec k' k); [lia|reflexivity].
    + intros t' k' c' f' x H'. thr t' t; [discriminate|].
      destruct (IF _ _ _ _ _ H') as [L F]. split; [lia|]. apply flying_other; auto. cbn. apply Nat.eqb_neq. intros ->. 
        pose proof (IU _ _ _ _ H' Ht eq_refl). contradiction.
    + intros t1 t2 x y H1 H2 HE. thr t1 t; [discriminate|]. thr t2 t; [discriminate|]. eapply IU; eauto.
    + intros k' Hk. destruct (Nat.eq_dec k' k) as [->|].
      * right. exists t, c, f, s, tr, r. rewrite proj_snoc, Pk. cbn [eabout]. rewrite Nat.eqb_refl. auto.
      * destruct (IO k' Hk) as [(t' & c' & f' & x & H')|F].
        -- left. exists t', c', f', x. rewrite setthr_other; auto. intros ->. congruence.
        -- right. apply finished_other; auto. cbn. apply Nat.eqb_neq. lia.
  - constructor; cbn [s_mem s_thr s_next]; auto.
    + eapply chain_snoc; [exact IC|]. cbn. auto.
    + intros k' Hk. rewrite proj_snoc, IN by lia. reflexivity.
    + intros t' k' c' f' x H'. destruct (IF _ _ _ _ _ H'). split; auto. apply flying_other; auto.
    + intros k' Hk. destruct (IO k' Hk); [left; auto|right; apply finished_other; auto].
Qed.
Lemma inv_steps T m0 : t_ie T = None -> forall E' S S', steps T S E' S' -> forall E, inv T m0 E S -> inv T m0 (E ++ E') S'.
Proof.
  intros HT E' S S' H. induction H as [S|S e S1 l S2 H1 H2 IH]; intros E I; [now rewrite app_nil_r|].
  replace (E ++ e :: l) with ((E ++ [e]) ++ l) by (rewrite <- app_assoc; reflexivity). apply IH. eapply inv_step; eauto.
Qed.
Lemma inv_init T m0 : wf_mem m0 -> inv T m0 [] (init m0).
Proof. intros W. constructor; cbn; auto; try discriminate. intros k Hk. lia. Qed.

(* ---- choosing the instants ---- *)
Definition mark := option (nat * op * rval).
Definition okstep (e : endian) (mk : mark) (i : nat) (st : mem * mem) : Prop :=
  match mk with
  | Some (j, c, r) => if Nat.eqb i j then op_spec e c (fst st) (snd st) r else silent st
  | None => silent st
  end.
(* a correct choice for call k *)
Definition choice (T : arch) (E : list event) (k : nat) (mk : mark) : Prop :=
  (forall i st, nth_error (steps_of k E) i = Some st -> okstep (t_e T) mk i st) /\
  (mk = None /\ (proj k E = [] \/ exists t c, proj k E = EInv t k c :: map (EStep k) (steps_of k E)) \/
   exists j t c r, mk = Some (j, c, r) /\ (j < length (steps_of k E))%nat /\
     (proj k E = EInv t k c :: map (EStep k) (steps_of k E) \/ proj k E = EInv t k c :: map (EStep k) (steps_of k E) ++ [ERet k r])).
Lemma steps_of_proj k E : steps_of k E = steps_of k (proj k E).
Proof.
  induction E as [|e E IH]; [reflexivity|]. unfold steps_of, proj in *. cbn [flat_map filter].
  destruct e; cbn [eabout]; try (destruct (Nat.eqb k k0) eqn:X; cbn [flat_map]; rewrite ?X, IH; reflexivity). exact IH.
Qed.
Lemma steps_of_map k tr : steps_of k (map (EStep k) tr) = tr.
Proof. induction tr as [|x tr IH]; [reflexivity|]. unfold steps_of in *. cbn [map flat_map]. rewrite Nat.eqb_refl, IH. reflexivity. Qed.
Lemma steps_of_app k a b : steps_of k (a ++ b) = steps_of k a ++ steps_of k b.
Proof. apply flat_map_app. Qed.
Lemma lin_ok e c t r : lin (op_spec e c) t r -> exists j, (j < length t)%nat /\ forall i st, nth_error t i = Some st -> okstep e (Some (j, c, r)) i st.
Proof.
  intros (t1 & m & m' & t2 & -> & S1 & S2 & S). exists (length t1). split; [rewrite app_length; cbn; lia|].
  intros i st H. cbn. destruct (Nat.eqb_spec i (length t1)) as [->|N].
  - rewrite nth_error_app2, Nat.sub_diag in H by lia. injection H as <-. exact S.
  - destruct (lt_dec i (length t1)).
    + rewrite nth_error_app1 in H by lia. apply nth_error_In in H. rewrite Forall_forall in S1. auto.
    + rewrite nth_error_app2 in H by lia. destruct (i - length t1)%nat eqn:D; [lia|]. cbn in H. apply nth_error_In in H. rewrite Forall_forall in S2. auto.
Qed.
Lemma atomic_run T c f tr s : t_ie T = None -> t_wf T -> runs T c f tr s ->
  pending (op_spec (t_e T) c) tr /\ (at_exit (f_prog f) s -> exists r, (op_ub T c = false -> f_out f (rf s) = Some r) /\ (forall r', f_out f (rf s) = Some r' -> r' = r) /\ lin (op_spec (t_e T) c) tr r).
Proof.
  intros HT W (c0 & -> & A2 & A3 & A4 & os & s0 & Ww & P0 & I0 & R). destruct (op_atomic_any T c0 f W A2 A4) as (f' & F1 & F2 & F3 & F4 & G).
  destruct (atomic_ran T f' (op_spec (t_e T) (as_done T c0)) tr tr s G) as [Pd Ex]; [apply ran_mp with os s0; auto; [now rewrite F2|now rewrite F1]|]. split; [exact Pd|].
  rewrite F1 in Ex. intros X. destruct (Ex X) as (r & O & L). exists r. split; [|split; [|exact L]].
  - intros U. rewrite op_ub_done in U. now rewrite <- (F4 U).
  - intros r' O'. apply F3 in O'. congruence.
Qed.
Lemma choose T m0 E S k : t_ie T = None -> t_wf T -> inv T m0 E S -> exists mk, choice T E k mk.
Proof.
  intros HT W I. destruct (le_lt_dec (s_next S) k) as [Hk|Hk].
  - exists None. pose proof (i_new _ _ _ _ I k Hk) as P. split; [|left; auto]. intros i st. rewrite steps_of_proj, P. destruct i; discriminate.
  - destruct (i_old _ _ _ _ I k Hk) as [(t & c & f & s & Ht)|(t & c & f & s & tr & r & P & R & Ex & Ho)].
    + destruct (i_fly _ _ _ _ I _ _ _ _ _ Ht) as [_ (tr & P & R)].
      assert (steps_of k E = tr) as Es by (rewrite steps_of_proj, P; apply steps_of_map).
      destruct (atomic_run T c f tr s HT W R) as [[Sl|[r L]] _].
      * exists None. split; [|left; split; auto; right; exists t, c; rewrite Es; exact P]. rewrite Es. intros i st H. apply nth_error_In in H. cbn. rewrite Forall_forall in Sl. auto.
      * destruct (lin_ok _ _ _ _ L) as (j & Hj & Ok). exists (Some (j, c, r)). split; [rewrite Es; exact Ok|]. right. exists j, t, c, r. rewrite Es. auto.
    + assert (steps_of k E = tr) as Es.
      { rewrite steps_of_proj, P. change (EInv t k c :: map (EStep k) tr ++ [ERet k r]) with ([EInv t k c] ++ map (EStep k) tr ++ [ERet k r]).
        rewrite !steps_of_app, steps_of_map. cbn. now rewrite app_nil_r. }
      destruct (atomic_run T c f tr s HT W R) as [_ G]. destruct (G Ex) as (r' & _ & Hr & L). rewrite <- (Hr _ Ho) in L.
      destruct (lin_ok _ _ _ _ L) as (j & Hj & Ok). exists (Some (j, c, r)). split; [rewrite Es; exact Ok|]. right. exists j, t, c, r. rewrite Es. auto.
Qed.
Lemma choose_all {X} (P : nat -> X -> Prop) (d : X) N : (forall k, exists x, P k x) -> exists g, forall k, (k < N)%nat -> P k (g k).
Proof.
  intros H. induction N as [|N [g IH]]; [exists (fun _ => d); lia|]. destruct (H N) as [x Hx].
  exists (fun k => if Nat.eqb k N then x else g k). intros k Hk. destruct (Nat.eqb_spec k N) as [->|]; [exact Hx|apply IH; lia].
Qed.

(* ---- the atomic history ---- *)
Definition bump (cnt : nat -> nat) (k : nat) : nat -> nat := fun x => if Nat.eqb x k then S (cnt x) else cnt x.
Fixpoint annot (mk : nat -> mark) (cnt : nat -> nat) (E : list event) : list aev :=
  match E with
  | [] => []
  | EInv t k c :: E' => AInv t k c :: annot mk cnt E'
  | ERet k r :: E' => ARet k r :: annot mk cnt E'
  | EPlain a b :: E' => APlain a b :: annot mk cnt E'
  | EStep k _ :: E' =>
      (match mk k with Some (j, c, r) => if Nat.eqb (cnt k) j then [ALin k c r] else [] | None => [] end) ++ annot mk (bump cnt k) E'
  end.
Lemma annot_view mk : forall E cnt, flat_map view_a (annot mk cnt E) = flat_map view_e E.
Proof.
  induction E as [|e E IH]; intros cnt; [reflexivity|]. destruct e; cbn [annot flat_map view_a view_e]; rewrite ?flat_map_app, IH; try reflexivity.
  destruct (mk k) as [[[j c] r]|]; [destruct (Nat.eqb (cnt k) j)|]; reflexivity.
Qed.
Lemma legal_meq e m0 m l m' : meq m0 m -> legal e m l m' -> legal e m0 l m'.
Proof.
  intros H L. induction L; [apply l_nil|apply l_inv|apply l_ret|apply l_lin with m1 m2|apply l_plain]; eauto using meq_trans.
Qed.
Lemma annot_legal e mk : forall E cnt m mf, chain m E mf ->
  (forall k i st, nth_error (steps_of k E) i = Some st -> okstep e (mk k) (cnt k + i) st) -> legal e m (annot mk cnt E) mf.
Proof.
  induction E as [|x E IH]; intros cnt m mf C Ok; cbn [chain] in C; [subst; constructor; apply meq_refl|].
  destruct x as [t k c|k [a b]|k r|a b]; cbn [annot].
  - constructor. apply IH; auto.
  - destruct C as [<- C].
    assert (okstep e (mk k) (cnt k) (m, b)) as O0.
    { specialize (Ok k 0%nat (m, b)). rewrite Nat.add_0_r in Ok. apply Ok. unfold steps_of. cbn [flat_map]. rewrite Nat.eqb_refl. reflexivity. }
    assert (legal e b (annot mk (bump cnt k) E) mf) as L.
    { apply IH; auto. intros k' i st H. unfold bump. destruct (Nat.eqb_spec k' k) as [->|N].
      - specialize (Ok k (S i) st). rewrite Nat.add_succ_r in Ok. cbn [Nat.add]. apply Ok. unfold steps_of in *. cbn [flat_map]. rewrite Nat.eqb_refl. exact H.
      - apply Ok. unfold steps_of in *. cbn [flat_map]. destruct (Nat.eqb_spec k' k); [contradiction|]. exact H. }
    destruct (mk k) as [[[j c] r]|]; cbn [okstep] in O0; [destruct (Nat.eqb (cnt k) j)|]; cbn [app].
    + econstructor; [apply meq_refl|exact O0|exact L].
    + eapply legal_meq; [exact O0|exact L].
    + eapply legal_meq; [exact O0|exact L].
  - constructor. apply IH; auto.
  - destruct C as [<- C]. econstructor; [apply meq_refl|]. apply IH; auto.
Qed.
Lemma annot_ext mk : forall E cnt cnt', (forall k, cnt k = cnt' k) -> annot mk cnt E = annot mk cnt' E.
Proof.
  induction E as [|e E IH]; intros cnt cnt' H; [reflexivity|]. destruct e; cbn [annot]; try (f_equal; auto; fail).
  rewrite H. f_equal. apply IH. intros x. unfold bump. now rewrite H.
Qed.
Lemma annot_filter mk k : forall E cnt cnt', cnt k = cnt' k -> filter (about k) (annot mk cnt E) = annot mk cnt' (proj k E).
Proof.
  induction E as [|e E IH]; intros cnt cnt' H; [reflexivity|]. unfold proj in *. destruct e as [t k0 c|k0 st|k0 r|a b]; cbn [annot filter about eabout].
  - destruct (Nat.eqb k k0); cbn [annot]; [f_equal|]; auto.
  - rewrite filter_app. destruct (Nat.eqb_spec k k0) as [<-|N].
    + cbn [annot]. rewrite <- H. f_equal; [|apply IH; unfold bump; rewrite Nat.eqb_refl; now rewrite H].
      destruct (mk k) as [[[j c] r]|]; [destruct (Nat.eqb (cnt k) j)|]; try reflexivity. cbn [filter about]. now rewrite Nat.eqb_refl.
    + rewrite (IH (bump cnt k0) cnt'); [|unfold bump; destruct (Nat.eqb_spec k k0); [contradiction|exact H]].
      destruct (mk k0) as [[[j c] r]|]; [destruct (Nat.eqb (cnt k0) j)|]; try reflexivity. cbn [filter about]. destruct (Nat.eqb_spec k k0); [contradiction|reflexivity].
  - destruct (Nat.eqb k k0); cbn [annot]; [f_equal|]; auto.
  - apply IH; auto.
Qed.
Lemma annot_steps_late mk k tail j c r : mk k = Some (j, c, r) -> forall tr cnt, (j < cnt k)%nat ->
  exists cnt', annot mk cnt (map (EStep k) tr ++ tail) = annot mk cnt' tail.
Proof.
  intros M. induction tr as [|x tr IH]; intros cnt H; [exists cnt; reflexivity|]. cbn [map app annot]. rewrite M. destruct (Nat.eqb_spec (cnt k) j); [lia|].
  apply IH. unfold bump. rewrite Nat.eqb_refl. lia.
Qed.
Lemma annot_steps mk k tail j c r : mk k = Some (j, c, r) -> forall tr cnt, (cnt k <= j < cnt k + length tr)%nat ->
  exists cnt', annot mk cnt (map (EStep k) tr ++ tail) = ALin k c r :: annot mk cnt' tail.
Proof.
  intros M. induction tr as [|x tr IH]; intros cnt H; cbn [length] in H; [lia|]. cbn [map app annot]. rewrite M. destruct (Nat.eqb_spec (cnt k) j).
  - destruct (annot_steps_late mk k tail j c r M tr (bump cnt k)) as [cnt' X]; [unfold bump; rewrite Nat.eqb_refl; lia|]. exists cnt'. cbn [app]. now rewrite X.
  - apply IH. unfold bump. rewrite Nat.eqb_refl. lia.
Qed.
Lemma annot_steps_none mk k : mk k = None -> forall tr cnt, annot mk cnt (map (EStep k) tr) = [].
Proof. intros M. induction tr as [|x tr IH]; intros cnt; [reflexivity|]. cbn [map annot]. rewrite M. apply IH. Qed.

Theorem system_linearizable T m0 h S : t_ie T = None -> t_wf T -> wf_mem m0 -> steps T (init m0) h S -> linearizable (t_e T) m0 h (s_mem S).
Proof.
  intros HT W Wm St. pose proof (inv_steps T m0 HT h _ _ St [] (inv_init T m0 Wm)) as I. cbn [app] in I.
  destruct (choose_all (choice T h) None (s_next S) (fun k => choose T m0 h S k HT W I)) as [g Hg].
  assert (forall k, choice T h k (if k <? s_next S then g k else None)%nat) as Hc.
  { intros k. destruct (Nat.ltb_spec k (s_next S)); [auto|]. pose proof (i_new _ _ _ _ I k H) as P. split; [|left; auto].
    intros i st. rewrite steps_of_proj, P. destruct i; discriminate. }
  set (mk := fun k => (if k <? s_next S then g k else None)%nat) in *. change (forall k, choice T h k (mk k)) in Hc. clearbody mk.
  exists (annot mk (fun _ => 0%nat) h). split; [apply annot_view|split].
  - apply annot_legal; [apply I|]. intros k i st H. cbn [Nat.add]. now apply Hc.
  - intros k. cbv zeta. rewrite (annot_filter mk k h (fun _ => 0%nat) (fun _ => 0%nat) eq_refl).
    destruct (Hc k) as [_ [[M [P|(t & c & P)]]|(j & t & c & r & M & Hj & [P|P])]]; rewrite P.
    + left; reflexivity.
    + right. exists t, c. left. cbn [annot]. rewrite annot_steps_none by exact M. reflexivity.
    + right. exists t, c. right. exists r. left. cbn [annot]. rewrite <- (app_nil_r (map (EStep k) (steps_of k h))).
      destruct (annot_steps mk k [] j c r M (steps_of k h) (fun _ => 0%nat)) as [cnt' X]; [lia|]. rewrite X. reflexivity.
    + right. exists t, c. right. exists r. right. cbn [annot].
      destruct (annot_steps mk k [ERet k r] j c r M (steps_of k h) (fun _ => 0%nat)) as [cnt' X]; [lia|]. rewrite X. reflexivity.
Qed.
(* no reachable state is stuck in the middle of a call, and a call at its end can return *)
Theorem system_progress T m0 h S t x : t_ie T = None -> t_wf T -> wf_mem m0 -> steps T (init m0) h S -> s_thr S t = Some x -> op_ub T (k_op x) = false ->
  exists e S', step T S e S' /\ eabout (k_id x) e = true.
Proof.
  intros HT W Wm St Ht Ub. pose proof (inv_steps T m0 HT h _ _ St [] (inv_init T m0 Wm)) as I. cbn [app] in I. destruct x as [k c f s]. cbn [k_op] in Ub.
  destruct (i_fly _ _ _ _ I _ _ _ _ _ Ht) as [_ (tr & P & R)].
  destruct (nth_error (f_prog f) (pc s)) as [i|] eqn:N.
  - destruct (exec (t_e T) (f_prog f) i (mkor (s_mem S) true 0) s) as [[s' m']|] eqn:X.
    + eexists _, _. split; [eapply s_step; eauto|]. cbn. apply Nat.eqb_refl.
    + exfalso. destruct R as (c0 & -> & A2 & A3 & A4 & os & s0 & Ww & P0 & I0 & R). destruct (op_atomic_any T c0 f W A2 A4) as (f' & _ & _ & _ & F4 & G). rewrite op_ub_done in Ub. rewrite (F4 Ub) in G.
      apply atomic_stuck in G. apply G. unfold stuck. rewrite HT. exists (os ++ [mkor (s_mem S) true 0]), s0. repeat split; auto.
      { apply Forall_app. split; [exact Ww|]. constructor; [apply I|constructor]. }
      clear - R N X. revert s0 tr R. induction os as [|o os IH]; intros s0 tr R; cbn [run app] in *.
      * injection R as <- <-. rewrite N, X. reflexivity.
      * destruct (nth_error (f_prog f) (pc s0)) eqn:N0; [|injection R as <- <-; congruence]. match type of R with context [exec ?a ?b ?c ?d ?g] => destruct (exec a b c d g) as [[s1 m1]|] end; [|discriminate].
        destruct (run (t_e T) (f_prog f) os s1) eqn:R1; [|discriminate]. injection R as <- <-. now rewrite (IH _ _ R1).
  - assert (at_exit (f_prog f) s) as Ex.
    { apply nth_error_None in N. destruct R as (c0 & A1 & A2 & A3 & A4 & os & s0 & Ww & P0 & I0 & R). unfold at_exit.
      assert (pc s <= length (f_prog f))%nat; [|lia]. assert (pc s0 <= length (f_prog f))%nat as L0 by lia. clear - R L0. revert s0 tr L0 R.
      induction os as [|o os IH]; intros s0 tr L0 R; cbn [run] in R; [injection R as <- <-; exact L0|].
      destruct (nth_error (f_prog f) (pc s0)) eqn:N0; [|injection R as <- <-; exact L0]. match type of R with context [exec ?a ?b ?c ?d ?g] => destruct (exec a b c d g) as [[s1 m1]|] eqn:X end; [|discriminate].
      destruct (run (t_e T) (f_prog f) os s1) eqn:R1; [|discriminate]. injection R as <- <-. eapply IH; [eapply exec_pc; eauto|eauto]. }
    destruct (atomic_run T c f tr s HT W R) as [_ G]. destruct (G Ex) as (r & Ho & _). specialize (Ho Ub).
    eexists _, _. split; [eapply s_ret; eauto|]. cbn. apply Nat.eqb_refl.
Qed.
