From Verif Require Import Steps P_m68k Arch_m68k.
From Verif Require Import Api All_atomic All_misc.

Lemma lin_fmap {A B} (g : A -> B) (sp : mem -> mem -> A -> Prop) (sp' : mem -> mem -> B -> Prop) t r :
  (forall m m' x, sp m m' x -> sp' m m' (g x)) -> lin sp t r -> lin sp' t (g r).
Proof. intros H (t1 & m & m' & t2 & E & S1 & S2 & S). exists t1, m, m', t2. auto. Qed.
Lemma pending_fmap {A B} (g : A -> B) (sp : mem -> mem -> A -> Prop) (sp' : mem -> mem -> B -> Prop) t :
  (forall m m' x, sp m m' x -> sp' m m' (g x)) -> pending sp t -> pending sp' t.
Proof. intros H [P|[r P]]; [left; auto|right; exists (g r); eapply lin_fmap; eauto]. Qed.
Lemma is_atomic_fmap {A B} (g : A -> B) T (f : fn A) (sp : mem -> mem -> A -> Prop) (sp' : mem -> mem -> B -> Prop) : (forall m m' x, sp m m' x -> sp' m m' (g x)) ->
  is_atomic T f sp -> is_atomic T (fmap g f) sp'.
Proof.
  intros H G. unfold is_atomic in *. destruct T;
  try solve [intros os s0 Hw Hp Hi; specialize (G os s0 Hw Hp Hi); cbn [fmap f_prog f_out] in *; destruct run as [t sf|]; [|exact G];
    destruct G as [G1 G2]; split; [|eapply pending_fmap; eauto]; intros E; destruct (G1 E) as (r & Hr & Hl); exists (g r); rewrite Hr; split; [reflexivity|];
    eapply lin_fmap; eauto];
  (intros os s0 m0 Hw Hm Hp Hi; specialize (G os s0 m0 Hw Hm Hp Hi); cbn [fmap f_prog f_out] in *; destruct run_irq as [[[t cur] sf]|]; [|exact G];
    destruct G as [G1 G2]; split; [|eapply pending_fmap; eauto]; intros E; destruct (G1 E) as ((r & Hr & Hl) & Hie); split; [|exact Hie]; exists (g r); rewrite Hr; split; [reflexivity|];
    eapply lin_fmap; eauto).
Qed.
Lemma impl_map_inv {A B} (g : A -> B) i y : impl_map g i = Impl y -> exists x, i = Impl x /\ y = g x.
Proof. destruct i; cbn; intros [= <-]; eauto. Qed.

(* every call is one atomic operation *)
Theorem op_atomic T c f : t_wf T -> op_args T c -> op_broken T c = false -> op_impl T c = Impl f -> is_atomic T f (op_spec (t_e T) c).
Proof.
  intros W Ha Hb H. destruct c; cbn [op_impl op_args op_broken] in *; apply impl_map_inv in H; destruct H as (x & E & ->).
  - eapply is_atomic_fmap; [|exact (all_load_atomic T n o a x W Ha E)]. auto.
  - destruct Ha as [Ha Hv]. eapply is_atomic_fmap; [|exact (all_store_atomic T n o a v x W Ha Hv E)]. intros m m' []; auto.
  - destruct Ha as [Ha Hv]. eapply is_atomic_fmap; [|exact (all_swap_atomic T n o a v x W Ha Hv E)]. auto.
  - destruct Ha as (Ha & Hv & Hn). apply Bool.orb_false_iff in Hb. destruct Hb as [U S].
    eapply is_atomic_fmap; [|exact (all_cas_atomic T n success failure a current new x W Ha Hv Hn U S E)]. intros m m' [v ok]; auto.
  - destruct Ha as (Ha & Hv & Hn).
    eapply is_atomic_fmap; [|exact (all_casw_atomic T n success failure a current new x W Ha Hv Hn Hb E)]. intros m m' [v ok]; auto.
Qed.
(* without exception: decoded without the assertion of m68k.rs, every call is one atomic operation *)
Theorem op_atomic_any T c f : t_wf T -> op_args T c -> op_impl T c = Impl f ->
  exists f', f_prog f' = f_prog f /\ f_in f' = f_in f /\ (forall g r, f_out f g = Some r -> f_out f' g = Some r) /\ (op_ub T c = false -> f' = f) /\
    is_atomic T f' (op_spec (t_e T) (as_done T c)).
Proof.
  intros W Ha H. destruct (op_ub T c) eqn:U.
  - assert (exists b, T = M68k b) as [b ->] by (destruct T; try (destruct c; discriminate U); eauto).
    assert (forall n s fo a cur new x, mk_cas_ b n s fo a cur new = Impl x -> exists f', f_prog f' = f_prog x /\ f_in f' = f_in x /\ (forall g r, f_out x g = Some r -> f_out f' g = Some r) /\
      is_atomic (M68k b) f' (cas_spec BE a n cur new)) as K.
    { intros n s fo a cur new x E. destruct (mk_cas_atomic_partial _ _ _ _ _ _ _ _ E) as (f' & F1 & F2 & F3 & F4). exists f'. split; [auto|]. split; [auto|]. split; [auto|]. now apply fx_atomic. }
    destruct c; try discriminate U; cbn [op_impl as_done] in *; apply impl_map_inv in H; destruct H as (x & E & ->); cbn [t_cas t_casw] in E.
    + destruct (K _ _ _ _ _ _ _ E) as (f' & F1 & F2 & F3 & F4). exists (fmap (fun r => RCas (fst r) (snd r)) f').
      split; [auto|]. split; [auto|]. split; [|split; [discriminate|]].
      * intros g r. cbn [fmap f_out]. destruct (f_out x g) as [y|] eqn:Y; [|discriminate]. rewrite (F3 _ _ Y). auto.
      * unfold cas_upper_bits. rewrite ?Bool.andb_false_r. eapply is_atomic_fmap; [|exact F4]. intros m m' [v ok]; auto.
    + destruct (K _ _ _ _ _ _ _ E) as (f' & F1 & F2 & F3 & F4). exists (fmap (fun r => RCas (fst r) (snd r)) f').
      split; [auto|]. split; [auto|]. split; [|split; [discriminate|]].
      * intros g r. cbn [fmap f_out]. destruct (f_out x g) as [y|] eqn:Y; [|discriminate]. rewrite (F3 _ _ Y). auto.
      * eapply is_atomic_fmap; [|exact F4]. intros m m' [v ok] [A B]. split; [exact A|]. destruct ok; [exact B|apply B].
  - exists f. repeat (split; [auto; reflexivity|]). destruct (op_broken T c) eqn:B.
    + destruct c as [| | |n s fo a cur new|]; cbn [op_broken op_ub as_done] in *; try discriminate; [|congruence]. rewrite U, Bool.orb_false_r in B. rewrite B.
      apply impl_map_inv in H; destruct H as (x & E & ->). eapply is_atomic_fmap; [|exact (upper_bits_weak T n s fo a cur new x W B E)]. intros m m' [v ok]; auto.
    + replace (as_done T c) with c; [now apply op_atomic|]. destruct c; auto. cbn [op_broken as_done] in *. apply Bool.orb_false_iff in B. destruct B as [-> _]. reflexivity.
Qed.
Lemma as_done_id T c : op_broken T c = false -> as_done T c = c.
Proof. destruct c; auto. cbn. intros B. apply Bool.orb_false_iff in B. destruct B as [-> _]. reflexivity. Qed.
Lemma as_done_cell T c : op_cell (as_done T c) = op_cell c.
Proof. destruct c; auto. cbn. destruct (cas_upper_bits T n); reflexivity. Qed.
Lemma op_ub_done T c : op_ub T (as_done T c) = op_ub T c.
Proof. destruct c; auto. cbn. destruct (cas_upper_bits T n); reflexivity. Qed.
Lemma op_reachable T c : op_check c = Ret tt -> op_impl T c <> Unreachable.
Proof.
  destruct c; cbn [op_check op_impl]; intros H;
  match goal with |- impl_map _ ?i <> _ => destruct i eqn:E; cbn; try discriminate; exfalso; revert E end.
  - now apply load_reachable. - now apply store_reachable. - now apply swap_reachable. - now apply cas_reachable. - now apply casw_reachable.
Qed.
Lemma atomic_ran {A} T (f : fn A) sp t t' sf : is_atomic T f sp -> ran T f t t' sf ->
  pending sp t /\ (at_exit (f_prog f) sf -> exists r, f_out f (rf sf) = Some r /\ lin sp t' r).
Proof.
  intros G R. unfold is_atomic in G. inversion R as [os s0 ? ? E Hw Hp Hi X | ie os s0 m0 ? cur ? E Hw Hm Hp Hi X]; subst;
  destruct T; cbn [t_ie] in E; try discriminate E; try (injection E as <-);
  try (specialize (G os s0 Hw Hp Hi); cbn [t_e] in *; rewrite X in G; tauto);
  (specialize (G os s0 m0 Hw Hm Hp Hi); rewrite X in G; split; [apply G|intros EX; apply G, EX]).
Qed.
Lemma atomic_stuck {A} T (f : fn A) sp : is_atomic T f sp -> ~ stuck T f.
Proof.
  intros G R. unfold is_atomic in G. unfold stuck in R. destruct T; cbn [t_ie t_e] in *;
  try (destruct R as (os & s0 & Hw & Hp & Hi & X); specialize (G os s0 Hw Hp Hi); rewrite X in G; exact G);
  (destruct R as (os & s0 & m0 & Hw & Hm & Hp & Hi & X); specialize (G os s0 m0 Hw Hm Hp Hi); rewrite X in G; exact G).
Qed.
Lemma op_pre_check T c : op_pre T c = Ret tt -> op_check c = Ret tt.
Proof. unfold op_pre. destruct (op_check c) as [[]|]; auto. Qed.
(* what any API call does *)
Theorem api_call T c t st : t_wf T -> op_args T c -> op_broken T c = false -> call_run T c t st ->
  match st with
  | Panicked => op_pre T c = Panic /\ t = []
  | Running => op_pre T c = Ret tt /\ pending (op_spec (t_e T) c) t
  | Returned r => op_pre T c = Ret tt /\ lin (op_spec (t_e T) c) t r
  | UB => False
  end.
Proof.
  intros W Ha Hb R. inversion R as [H|H U|f ? t' sf H I X|f t0 ? sf r H I X E O|f t0 ? sf H I X E O|f H I X]; subst; auto.
  - exfalso. revert U. now apply op_reachable, op_pre_check with T.
  - split; auto. eapply atomic_ran; [eapply op_atomic; eauto|eauto].
  - split; auto. destruct (atomic_ran T f (op_spec (t_e T) c) t0 t sf) as [_ G]; auto using op_atomic. destruct (G E) as (r' & Hr & L). congruence.
  - destruct (atomic_ran T f (op_spec (t_e T) c) t0 t sf) as [_ G]; auto using op_atomic. destruct (G E) as (r' & Hr & L). congruence.
  - eapply atomic_stuck; [eapply op_atomic; eauto|exact X].
Qed.
