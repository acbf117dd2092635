(* Sequential correctness: a call with nobody else around runs to its end and does what its name says. *)
From Verif Require Import Steps.
From Verif Require Import Api ApiProofs All_atomic All_progress Inputs.

Fixpoint chain_to (m : mem) (t : trace) (m' : mem) : Prop := match t with [] => m = m' | (a, b) :: t' => m = a /\ chain_to b t' m' end.
Lemma alone_trace e p : forall js m s m' s', wf_mem m -> alone e p js m s = Some (m', s') ->
  exists os t, run e p os s = Ran t s' /\ wf_oracles os /\ chain_to m t m'.
Proof.
  induction js as [|j js IH]; intros m s m' s' Hm H; cbn [alone] in H.
  - injection H as <- <-. exists [], []. repeat split. constructor.
  - destruct (nth_error p (pc s)) as [i|] eqn:N; [|injection H as <- <-; exists [], []; repeat split; constructor].
    destruct (exec e p i (mkor m true j) s) as [[s1 m1]|] eqn:E; [|discriminate].
    assert (wf_mem m1) as Hm1 by (eapply exec_wf; [|exact E]; exact Hm).
    destruct (IH _ _ _ _ Hm1 H) as (os & t & R & Wo & C). exists (mkor m true j :: os), ((m, m1) :: t).
    cbn [run chain_to]. rewrite N, E, R. split; [reflexivity|]. split; [constructor; auto|]. auto.
Qed.
Lemma chain_app t1 : forall m t2 m', chain_to m (t1 ++ t2) m' -> exists x, chain_to m t1 x /\ chain_to x t2 m'.
Proof. induction t1 as [|[u v] t1 IH]; intros m t2 m' H; cbn [app chain_to] in *; [eauto|]. destruct H as [-> H]. apply IH in H. destruct H as (x & H1 & H2). eauto. Qed.
Lemma chain_silent t : forall m m', chain_to m t m' -> Forall silent t -> meq m m'.
Proof. induction t as [|[u v] t IH]; intros m m' H S; cbn in *; [subst; apply meq_refl|]. destruct H as [-> H]. inversion S; subst. eapply meq_trans; [eassumption|]. apply IH; auto. Qed.
(* the specification only looks at memory contents *)
Lemma op_spec_meq e c m1 m2 m1' m2' r : meq m1 m1' -> meq m2 m2' -> op_spec e c m1 m2 r -> op_spec e c m1' m2' r.
Proof.
  intros E1 E2 H. destruct c, r; cbn [op_spec] in *; auto; unfold load_spec, store_spec, swap_spec, cas_spec, casw_spec in *; cbn [fst snd] in *;
  rewrite <- ?(rd_meq _ _ _ _ _ E1).
  - destruct H as [-> H]. split; auto. eapply meq_trans; [apply meq_sym; exact E1|]. eapply meq_trans; eauto.
  - eapply meq_trans; [apply meq_sym; exact E2|]. eapply meq_trans; [exact H|]. apply wr_meq; auto.
  - destruct H as [-> H]. split; auto. eapply meq_trans; [apply meq_sym; exact E2|]. eapply meq_trans; [exact H|]. apply wr_meq; auto.
  - destruct H as [-> H]. split; auto. destruct ok; destruct H as [H1 H2]; (split; [auto|]).
    + eapply meq_trans; [apply meq_sym; exact E2|]. eapply meq_trans; [exact H2|]. apply wr_meq; auto.
    + eapply meq_trans; [apply meq_sym; exact E2|]. eapply meq_trans; [exact H2|]. auto.
  - destruct H as [-> H]. split; auto. destruct ok; [destruct H as [H1 H2]; split; [auto|]|].
    + eapply meq_trans; [apply meq_sym; exact E2|]. eapply meq_trans; [exact H2|]. apply wr_meq; auto.
    + eapply meq_trans; [apply meq_sym; exact E2|]. eapply meq_trans; [exact H|]. auto.
Qed.
Lemma op_ends T c f : t_wf T -> op_args T c -> op_impl T c = Impl f -> ends_alone T f 51.
Proof.
  intros W Ha H. destruct c; cbn [op_impl op_args] in *; apply impl_map_inv in H; destruct H as (x & E & ->);
  (match goal with |- ends_alone _ (fmap ?g ?x) _ => assert (ends_alone T x 51) as G end;
   [|destruct T; cbn [ends_alone] in *; unfold bounded_irq in *; cbn [fmap f_prog f_in]; exact G]).
  - exact (all_load_ends T n o a x W Ha E). - destruct Ha as [H1 H2]. exact (all_store_ends T n o a v x W H1 H2 E). - destruct Ha as [H1 H2]. exact (all_swap_ends T n o a v x W H1 H2 E).
  - destruct Ha as (? & ? & ?). exact (all_cas_ends T n success failure a current new x W H H0 H1 E).
  - destruct Ha as (? & ? & ?). exact (all_casw_ends T n success failure a current new x W H H0 H1 E).
Qed.
(* a call alone on a multi-core target: from any memory and any allowed registers, at most 51 instructions, result and final
   memory as the sequential specification says *)
Theorem solo_call T c f m js s0 : t_ie T = None -> t_wf T -> op_args T c -> op_broken T c = false -> op_impl T c = Impl f ->
  wf_mem m -> (51 <= length js)%nat -> pc s0 = O -> f_in f (rf s0) ->
  exists m' s' r, alone (t_e T) (f_prog f) js m s0 = Some (m', s') /\ at_exit (f_prog f) s' /\ f_out f (rf s') = Some r /\ op_spec (t_e T) c m m' r.
Proof.
  intros HT W Ha Hb I Hm Hl Hp Hi. pose proof (op_ends T c f W Ha I) as En. pose proof (op_atomic T c f W Ha Hb I) as At.
  assert (exists m' s', alone (t_e T) (f_prog f) js m s0 = Some (m', s') /\ at_exit (f_prog f) s') as (m' & s' & R & X).
  { destruct T; cbn [t_ie ends_alone] in *; try discriminate HT; exact (En js m s0 Hm Hp Hi Hl). }
  destruct (alone_trace _ _ _ _ _ _ _ Hm R) as (os & t & Rn & Wo & C).
  assert (ran T f t t s') as Rr by (econstructor; eauto).
  destruct (atomic_ran _ _ _ _ _ _ At Rr) as [_ G]. destruct (G X) as (r & Or & (t1 & x & y & t2 & Et & S1 & S2 & Sp)).
  exists m', s', r. repeat split; auto. subst t. apply chain_app in C. destruct C as (z & C1 & C2). cbn [chain_to] in C2. destruct C2 as [-> C2].
  eapply op_spec_meq; [| |exact Sp]; [apply meq_sym; eapply chain_silent; eauto|eapply chain_silent; eauto].
Qed.
(* and allowed registers exist: so the call returns *)
Theorem solo_call_returns T c m : t_ie T = None -> t_wf T -> op_args T c -> op_broken T c = false -> op_pre T c = Ret tt -> wf_mem m ->
  op_impl T c = NoImpl \/ exists t r m', call_run T c t (Returned r) /\ chain_to m t m' /\ op_spec (t_e T) c m m' r.
Proof.
  intros HT W Ha Hb Hc Hm. destruct (op_impl T c) as [| |f] eqn:I; [auto|exfalso; revert I; now apply op_reachable, op_pre_check with T|right].
  destruct (op_inputs T c f W Ha I) as [g Hg].
  destruct (solo_call T c f m (repeat 0 51) (mkst O g None) HT W Ha Hb I Hm ltac:(cbn; auto) eq_refl Hg) as (m' & s' & r & R & X & Or & Sp).
  destruct (alone_trace _ _ _ _ _ _ _ Hm R) as (os & t & Rn & Wo & C).
  exists t, r, m'. repeat split; auto. eapply cr_ret; eauto. eapply ran_mp with (s0 := mkst O g None); eauto.
Qed.
