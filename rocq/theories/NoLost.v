(* C13: concurrent read-modify-writes never lose updates. *)
From Verif Require Import Conc ConcProofs All_atomic.

Lemma rd_wr_any e m a n v : 0 <= n -> rd e (wr e m a n v) a n = low (8 * n) v.
Proof.
  intros Hn. rewrite <- (rd_wr_same e (fun _ => 0) a n v) by (auto; intros x; lia). apply rd_ext. intros i Hi. unfold wr.
  replace (_ && _) with true; [reflexivity|]. symmetry. apply andb_true_iff. split; [apply Z.leb_le|apply Z.ltb_lt]; lia.
Qed.
Definition disjoint (x y : Z * Z) : Prop := fst x + snd x <= fst y \/ fst y + snd y <= fst x.
(* the calls considered: anything on cells not overlapping the cell [a, a+n), and on it loads, swaps and compare-exchanges (the
   calls fetch_update makes), but no plain store *)
Definition rmw_only (a n : Z) (c : op) : Prop :=
  match c with
  | OStore n' _ a' _ => disjoint (a, n) (a', n')
  | OSwap n' _ a' v => (a', n') = (a, n) /\ val n v \/ disjoint (a, n) (a', n')
  | OCas n' _ _ a' _ v | OCasWeak n' _ _ a' _ v => (a', n') = (a, n) /\ val n v \/ disjoint (a, n) (a', n')
  | OLoad _ _ _ => True
  end.
(* the update a call made to the cell: (value returned = replaced, value installed) *)
Definition update_of (a n : Z) (c : op) (r : rval) : list (Z * Z) :=
  let here a' n' := (a' =? a) && (n' =? n) in
  match c, r with
  | OSwap n' _ a' v, RVal old => if here a' n' then [(old, v)] else []
  | OCas n' _ _ a' _ v, RCas old true | OCasWeak n' _ _ a' _ v, RCas old true => if here a' n' then [(old, v)] else []
  | _, _ => []
  end.
Definition updates (a n : Z) (A : list aev) : list (Z * Z) :=
  flat_map (fun x => match x with ALin _ c r => update_of a n c r | _ => [] end) A.
(* each update replaced exactly what the previous one installed *)
Fixpoint chained_updates (v : Z) (l : list (Z * Z)) (final : Z) : Prop :=
  match l with [] => v = final | (old, new) :: l' => v = old /\ chained_updates new l' final end.

Lemma disjoint_rd e m m' a n a' n' : disjoint (a, n) (a', n') -> only_cell a' n' (m, m') -> rd e m' a n = rd e m a n.
Proof. intros D O. apply rd_ext. intros i Hi. apply (O (a + i)). unfold disjoint in D; cbn in D. lia. Qed.
Lemma op_only e c m m' r : op_spec e c m m' r -> only_cell (fst (op_cell c)) (snd (op_cell c)) (m, m').
Proof.
  destruct c, r; cbn [op_spec op_cell fst snd]; try tauto.
  - apply load_only. - apply store_only. - apply swap_only. - apply cas_only. - apply casw_only.
Qed.
Lemma update_spec e a n c r m m' : 0 < n -> rmw_only a n c -> op_spec e c m m' r ->
  (update_of a n c r = [] /\ rd e m' a n = rd e m a n) \/ (exists new, update_of a n c r = [(rd e m a n, new)] /\ rd e m' a n = new).
Proof.
  intros Hn R S. pose proof (op_only e c m m' r S) as O.
  destruct c as [n' o a'|n' o a' v|n' o a' v|n' os of a' cu v|n' os of a' cu v], r as [x| |x ok]; cbn [op_spec rmw_only update_of op_cell fst snd] in *; try tauto.
  - left. split; auto. symmetry. apply rd_meq, S.
  - left. split; auto. eapply disjoint_rd; eauto.
  - destruct ((a' =? a) && (n' =? n)) eqn:Here.
    + right. apply andb_true_iff in Here. destruct Here as [Ea En]. apply Z.eqb_eq in Ea, En. subst a' n'. destruct S as [-> M].
      exists v. split; auto. rewrite (rd_meq _ _ _ _ _ M), rd_wr_any by lia. destruct R as [[_ V]|D]; [now apply low_id|].
      unfold disjoint in D; cbn in D. lia.
    + left. split; auto. destruct R as [[[= -> ->] _]|D]; [rewrite !Z.eqb_refl in Here; discriminate|eapply disjoint_rd; eauto].
  - destruct ok.
    + destruct ((a' =? a) && (n' =? n)) eqn:Here.
      * right. apply andb_true_iff in Here. destruct Here as [Ea En]. apply Z.eqb_eq in Ea, En. subst a' n'. destruct S as [E [_ M]]. cbn in E. subst x.
        exists v. split; auto. rewrite (rd_meq _ _ _ _ _ M), rd_wr_any by lia. destruct R as [[_ V]|D]; [now apply low_id|]. unfold disjoint in D; cbn in D. lia.
      * left. split; auto. destruct R as [[[= -> ->] _]|D]; [rewrite !Z.eqb_refl in Here; discriminate|eapply disjoint_rd; eauto].
    + left. split; auto. destruct S as [_ [_ M]]. now apply rd_meq.
  - destruct ok.
    + destruct ((a' =? a) && (n' =? n)) eqn:Here.
      * right. apply andb_true_iff in Here. destruct Here as [Ea En]. apply Z.eqb_eq in Ea, En. subst a' n'. destruct S as [E [_ M]]. cbn in E. subst x.
        exists v. split; auto. rewrite (rd_meq _ _ _ _ _ M), rd_wr_any by lia. destruct R as [[_ V]|D]; [now apply low_id|]. unfold disjoint in D; cbn in D. lia.
      * left. split; auto. destruct R as [[[= -> ->] _]|D]; [rewrite !Z.eqb_refl in Here; discriminate|eapply disjoint_rd; eauto].
    + left. split; auto. destruct S as [_ M]. now apply rd_meq.
Qed.
Lemma legal_updates e a n : 0 < n -> forall A m mf, legal e m A mf ->
  (forall k c r, In (ALin k c r) A -> rmw_only a n c) -> (forall m1 m2, In (APlain m1 m2) A -> rd e m1 a n = rd e m2 a n) ->
  chained_updates (rd e m a n) (updates a n A) (rd e mf a n).
Proof.
  intros Hn A m mf L. induction L as [m m' E|m t k c l m' L IH|m k r l m' L IH|m k c r m1 m2 l m' E S L IH|m m1 m2 l m' E L IH]; intros R P; unfold updates; cbn [flat_map].
  - cbn. now apply rd_meq.
  - apply IH; intros; [eapply R|eapply P]; right; eauto.
  - apply IH; intros; [eapply R|eapply P]; right; eauto.
  - assert (chained_updates (rd e m2 a n) (updates a n l) (rd e m' a n)) as I by (apply IH; intros; [eapply R|eapply P]; right; eauto).
    rewrite (rd_meq _ _ _ _ _ E). destruct (update_spec e a n c r m1 m2 Hn) as [[U X]|(new & U & X)]; auto.
    + eapply R. left. reflexivity.
    + rewrite U, <- X. exact I.
    + rewrite U. cbn. split; auto. rewrite <- X. exact I.
  - rewrite (rd_meq _ _ _ _ _ E), (P m1 m2) by (left; reflexivity). apply IH; intros; [eapply R|eapply P]; right; eauto.
Qed.
Lemma vis_inv_in A t k c : In (AInv t k c) A -> In (VInv t k c) (flat_map view_a A).
Proof. intros H. apply in_flat_map. exists (AInv t k c). cbn. auto. Qed.

(* what follows from linearizability alone *)
Lemma lin_no_lost e m0 h mf a n : 0 < n -> linearizable e m0 h mf -> (forall t k c, In (EInv t k c) h -> rmw_only a n c) ->
  (forall m1 m2, In (EPlain m1 m2) h -> rd e m1 a n = rd e m2 a n) ->
  exists A, flat_map view_a A = flat_map view_e h /\ legal e m0 A mf /\
    (forall k, let l := filter (about k) A in
       l = [] \/ exists t c, l = [AInv t k c] \/ exists r, l = [AInv t k c; ALin k c r] \/ l = [AInv t k c; ALin k c r; ARet k r]) /\
    chained_updates (rd e m0 a n) (updates a n A) (rd e mf a n).
Proof.
  intros Hn (A & V & L & F) R P. exists A. repeat split; auto.
  apply legal_updates; auto.
  - intros k c r I. assert (In (ALin k c r) (filter (about k) A)) as I' by (apply filter_In; cbn; rewrite Nat.eqb_refl; auto).
    assert (exists t, In (AInv t k c) (filter (about k) A)) as [t It].
    { destruct (F k) as [E|(t & c' & [E|(r' & [E|E])])]; cbv zeta in E; rewrite E in *; cbn [In] in I'.
      - contradiction.
      - destruct I' as [[=]|[]].
      - destruct I' as [[=]|[[= <- <-]|[]]]. exists t. left. reflexivity.
      - destruct I' as [[=]|[[= <- <-]|[[=]|[]]]]. exists t. left. reflexivity. }
    apply filter_In in It. destruct It as [It _]. apply vis_inv_in in It. rewrite V in It. apply in_flat_map in It. destruct It as (x & Ix & Iv).
    destruct x; cbn in Iv; [destruct Iv as [[= <- <- <-]|[]]; eauto|contradiction|destruct Iv as [[=]|[]]|destruct Iv as [[=]|[]]].
  - intros m1 m2 I. assert (In (VPlain m1 m2) (flat_map view_a A)) as Iv by (apply in_flat_map; eexists; split; [exact I|left; reflexivity]).
    rewrite V in Iv. apply in_flat_map in Iv. destruct Iv as (x & Ix & Iv). destruct x; cbn in Iv; [destruct Iv as [[=]|[]]|contradiction|destruct Iv as [[=]|[]]|destruct Iv as [[= <- <-]|[]]; eauto].
Qed.

(* whatever the threads do, as long as nobody stores plainly to the cell *)
Theorem no_lost_updates T m0 h S a n : t_ie T = None -> t_wf T -> wf_mem m0 -> 0 < n -> steps T (init m0) h S ->
  (forall t k c, In (EInv t k c) h -> rmw_only a n c) ->
  (forall m1 m2, In (EPlain m1 m2) h -> rd (t_e T) m1 a n = rd (t_e T) m2 a n) ->
  exists A, (* a linearization as in C07 *)
    flat_map view_a A = flat_map view_e h /\ legal (t_e T) m0 A (s_mem S) /\
    (forall k, let l := filter (about k) A in
       l = [] \/ exists t c, l = [AInv t k c] \/ exists r, l = [AInv t k c; ALin k c r] \/ l = [AInv t k c; ALin k c r; ARet k r]) /\
    chained_updates (rd (t_e T) m0 a n) (updates a n A) (rd (t_e T) (s_mem S) a n).
Proof. intros HT W Wm Hn St. apply lin_no_lost; auto. now apply system_linearizable. Qed.
(* so a counter incremented only by updates that install (old + 1) counts them all *)
Fixpoint all_incr (n : Z) (l : list (Z * Z)) : Prop := match l with [] => True | (old, new) :: l' => new = low (8 * n) (old + 1) /\ all_incr n l' end.
Theorem counter_exact n : 0 < n -> forall l v final, val n v -> chained_updates v l final -> all_incr n l -> final = low (8 * n) (v + Z.of_nat (length l)).
Proof.
  intros Hn. induction l as [|[old new] l IH]; intros v final V C I; cbn [chained_updates all_incr length] in *.
  - subst. rewrite Z.add_0_r. symmetry. now apply low_id.
  - destruct C as [<- C]. destruct I as [-> I]. assert (val n (low (8 * n) (v + 1))) as V' by (apply low_range; lia).
    rewrite (IH _ _ V' C I). unfold low. rewrite Z.add_mod_idemp_l by (apply Z.pow_nonzero; lia). f_equal. lia.
Qed.
