(* C01-C06, C09-C11, C19, C20, C22: what one call does, on every target. *)
From Verif Require Import Api ApiProofs All_atomic All_misc All_progress Inputs Solo Client ClientProofs.
From Verif Require Import Sym Prog P_riscv P_loongarch P_mips P_m68k Arch_riscv Arch_m68k Arch_loongarch Arch_mips.
From Verif Require Export PropSpec.

(* the sizes that have implementations *)
Lemma impl_size T c f : op_impl T c = Impl f -> 0 < op_size c.
Proof.
  assert (forall n : Z, (n =? 1) || (n =? 2) || (n =? 4) || (n =? 8) || (n =? 16) = true -> 0 < n) as L by (intros n H; lia).
  intros H. destruct ((op_size c =? 1) || (op_size c =? 2) || (op_size c =? 4) || (op_size c =? 8) || (op_size c =? 16)) eqn:E; [auto|].
  exfalso. rewrite !Bool.orb_false_iff in E. destruct E as ((((E1 & E2) & E4) & E8) & E16).
  destruct c; cbn [op_size op_impl] in *;
  match type of H with impl_map _ ?i = _ => destruct i as [| |x] eqn:X; cbn [impl_map] in H; try discriminate H; clear H end;
  unfold t_casw, Arch_powerpc.pp_casw, Arch_aarch64.aa_casw, Arch_arm.ar_casw, Arch_armv8.a8_casw, Arch_aarch64l.aal_casw, Arch_armv8l.a8l_casw, Arch_arml.arl_casw in X;
  unfload; unfstore; unfswap; unfcas; Inputs.words; All_progress.szs; cbv zeta in X;
  destruct T; rewrite ?E1, ?E2, ?E4, ?E8, ?E16 in X; cbn [orb andb negb] in X; rewrite ?Bool.andb_false_r in X; cbn in X;
  repeat match type of X with context [if ?b then _ else _] => destruct b eqn:?; cbn in X end; try discriminate X.
Qed.
Lemma returned_size T c t r : call_run T c t (Returned r) -> 0 < op_size c.
Proof. intros R. inversion R; subst. eapply impl_size; eauto. Qed.

(* C01 *)
Theorem C01_load_untorn T n o a t r : t_wf T -> cell T n a -> call_run T (OLoad n o a) t (Returned r) ->
  exists v, r = RVal v /\ one_instant t (fun m m' => cell_is (t_e T) a n v m /\ unchanged m m') /\ no_effect t.
Proof.
  intros W C R. pose proof (returned_size _ _ _ _ R) as Hn. cbn in Hn. pose proof (call_twf _ _ _ _ R) as Wt. apply api_call in R; auto. destruct R as [_ L].
  destruct r as [v| |]; try (destruct L as (? & ? & ? & ? & _ & _ & _ & []); fail). exists v. split; auto. split.
  - eapply lin_instant; [exact Wt| |exact L]. intros m m' Wm [-> M]. split; [apply cell_rd; auto; lia|intros x; symmetry; apply M].
  - eapply lin_no_effect; [|exact L]. intros m m' [_ M]; auto.
Qed.
(* at any moment before it returns a load has changed nothing *)
Theorem C01_load_silent T n o a t s : t_wf T -> cell T n a -> call_run T (OLoad n o a) t s -> no_effect t.
Proof.
  intros W C R. apply api_call in R; auto. destruct s as [| |r|]; [destruct R as [_ ->]; intros ? ? []| | |contradiction].
  - destruct R as [_ [P|[r L]]]; [now apply silent_no_effect|]. eapply lin_no_effect; [|exact L]. intros m m'; destruct r; cbn; try tauto. intros [_ M]; auto.
  - destruct R as [_ L]. eapply lin_no_effect; [|exact L]. intros m m'; destruct r; cbn; try tauto. intros [_ M]; auto.
Qed.
(* C02 *)
Theorem C02_store_atomic T n o a v t r : t_wf T -> cell T n a -> val n v -> call_run T (OStore n o a v) t (Returned r) ->
  one_instant t (becomes (t_e T) a n v).
Proof.
  intros W C V R. pose proof (returned_size _ _ _ _ R) as Hn. cbn in Hn. pose proof (call_twf _ _ _ _ R) as Wt. apply api_call in R; auto; [|cbn; auto]. destruct R as [_ L].
  eapply lin_instant; [exact Wt| |exact L]. intros m m' Wm Sp. destruct r; try contradiction. apply becomes_wr; auto; lia.
Qed.
(* a call that has not returned: no effect so far, or already exactly its one effect *)
Definition so_far (t : trace) (P : mem -> mem -> Prop) : Prop := no_effect t \/ one_instant t P.
Lemma pending_so_far {A} (sp : mem -> mem -> A -> Prop) (P : mem -> mem -> Prop) t : Forall (fun st => wf_mem (fst st)) t -> (forall r m m', wf_mem m -> sp m m' r -> P m m') -> pending sp t -> so_far t P.
Proof. intros W H [S|[r L]]; [left; now apply silent_no_effect|right; eapply lin_instant; [exact W| |exact L]; eauto]. Qed.
Theorem C02_store_running T n o a v t : t_wf T -> cell T n a -> val n v -> 0 < n -> call_run T (OStore n o a v) t Running ->
  so_far t (becomes (t_e T) a n v).
Proof.
  intros W C V Hn R. pose proof (call_twf _ _ _ _ R) as Wt. apply api_call in R; auto; [|cbn; auto]. destruct R as [_ L].
  eapply pending_so_far; [exact Wt| |exact L]. intros r m m' Wm Sp. destruct r; try contradiction. apply becomes_wr; auto; lia.
Qed.
(* C03 *)
Theorem C03_swap_atomic T n o a v t r : t_wf T -> cell T n a -> val n v -> call_run T (OSwap n o a v) t (Returned r) ->
  exists old, r = RVal old /\ one_instant t (fun m m' => cell_is (t_e T) a n old m /\ becomes (t_e T) a n v m m').
Proof.
  intros W C V R. pose proof (returned_size _ _ _ _ R) as Hn. cbn in Hn. pose proof (call_twf _ _ _ _ R) as Wt. apply api_call in R; auto; [|cbn; auto]. destruct R as [_ L].
  destruct r as [old| |]; try (destruct L as (? & ? & ? & ? & _ & _ & _ & []); fail). exists old. split; auto.
  eapply lin_instant; [exact Wt| |exact L]. intros m m' Wm [-> M]. split; [apply cell_rd; auto; lia|apply becomes_wr; auto; lia].
Qed.
(* C04.  Partial: not for 32-bit compare_exchange on riscv64, loongarch64, mips64 and not for m68k, where it is false (below). *)
Theorem C04_compare_exchange_partial T n so fo a current new t r : t_wf T -> cell T n a -> val n current -> val n new ->
  cas_upper_bits T n = false -> cas_seq_byte T = false -> call_run T (OCas n so fo a current new) t (Returned r) ->
  exists previous ok, r = RCas previous ok /\
    if ok then previous = current /\ one_instant t (fun m m' => cell_is (t_e T) a n current m /\ becomes (t_e T) a n new m m')
    else previous <> current /\ no_effect t /\ one_instant t (fun m m' => cell_is (t_e T) a n previous m /\ unchanged m m').
Proof.
  intros W C Vc V U S R. pose proof (returned_size _ _ _ _ R) as Hn. cbn in Hn. pose proof (call_twf _ _ _ _ R) as Wt. apply api_call in R; auto; [|cbn; auto|cbn; rewrite U, S; auto]. destruct R as [_ L].
  destruct r as [| |prev ok]; try (destruct L as (? & ? & ? & ? & _ & _ & _ & []); fail). exists prev, ok. split; auto. destruct ok.
  - assert (prev = current) as -> by (destruct L as (? & ? & ? & ? & _ & _ & _ & [E [E' _]]); cbn in *; congruence). split; auto.
    eapply lin_instant; [exact Wt| |exact L]. intros m m' Wm [E [E' M]]. cbn in *. split; [rewrite <- E'; apply cell_rd; auto; lia|apply becomes_wr; auto; lia].
  - assert (prev <> current) as Ne by (destruct L as (? & ? & ? & ? & _ & _ & _ & [E [E' _]]); cbn in *; congruence). split; auto. split.
    + eapply lin_no_effect; [|exact L]. intros m m' [_ [_ M]]. now apply meq_sym.
    + eapply lin_instant; [exact Wt| |exact L]. intros m m' Wm [E [_ M]]. cbn in *. split; [rewrite E; apply cell_rd; auto; lia|exact M].
Qed.
(* the same for the three 64-bit targets if the compiler passes `current` sign-extended, as LLVM usually does *)
Theorem C04_sign_extended T n so fo a current new f : t_wf T -> cell T n a -> val n current -> val n new -> cas_upper_bits T n = true ->
  t_cas T n so fo a current new = Impl f -> is_atomic T (with_in f old_sign_extended) (cas_spec (t_e T) a n current new).
Proof. exact (all_cas_signext_atomic T n so fo a current new f). Qed.
(* C05.  Partial: not m68k. *)
Theorem C05_compare_exchange_weak_partial T n so fo a current new t r : t_wf T -> cell T n a -> val n current -> val n new ->
  cas_seq_byte T = false -> call_run T (OCasWeak n so fo a current new) t (Returned r) ->
  exists previous ok, r = RCas previous ok /\
    if ok then previous = current /\ one_instant t (fun m m' => cell_is (t_e T) a n current m /\ becomes (t_e T) a n new m m')
    else no_effect t /\ one_instant t (fun m m' => cell_is (t_e T) a n previous m /\ unchanged m m').
Proof.
  intros W C Vc V S R. pose proof (returned_size _ _ _ _ R) as Hn. cbn in Hn. pose proof (call_twf _ _ _ _ R) as Wt. apply api_call in R; auto; [|cbn; auto]. destruct R as [_ L].
  destruct r as [| |prev ok]; try (destruct L as (? & ? & ? & ? & _ & _ & _ & []); fail). exists prev, ok. split; auto. destruct ok.
  - assert (prev = current) as -> by (destruct L as (? & ? & ? & ? & _ & _ & _ & [E [E' _]]); cbn in *; congruence). split; auto.
    eapply lin_instant; [exact Wt| |exact L]. intros m m' Wm [E [E' M]]. cbn in *. split; [rewrite <- E'; apply cell_rd; auto; lia|apply becomes_wr; auto; lia].
  - split.
    + eapply lin_no_effect; [|exact L]. intros m m' [_ M]. now apply meq_sym.
    + eapply lin_instant; [exact Wt| |exact L]. intros m m' Wm [E M]. cbn in *. split; [rewrite E; apply cell_rd; auto; lia|exact M].
Qed.
(* a strong compare_exchange is also a correct weak one on the three 64-bit targets *)
Theorem C04_upper_bits_still_weak T n so fo a current new f : t_wf T -> cas_upper_bits T n = true ->
  t_cas T n so fo a current new = Impl f -> is_atomic T f (casw_spec (t_e T) a n current new).
Proof. exact (upper_bits_weak T n so fo a current new f). Qed.

(* C06: no step of any call, at any instant, changes a byte outside the cell (all targets, no exclusions) *)
Lemma every_fmap {A B} (g : A -> B) T (f : fn A) P : every_step T f P -> every_step T (fmap g f) P.
Proof. destruct T; exact (fun H => H). Qed.
Lemma op_frame T c f : t_wf T -> op_args T c -> op_impl T c = Impl f -> every_step T f (only_cell (fst (op_cell c)) (snd (op_cell c))).
Proof.
  intros W Ha H. destruct c; cbn [op_impl op_args op_cell fst snd] in *; apply impl_map_inv in H; destruct H as (x & E & ->); apply every_fmap.
  - eapply atomic_frame; [|exact (all_load_atomic T n o a x W Ha E)]. apply load_only.
  - destruct Ha as [H1 H2]. exact (all_store_frame T n o a v x W H1 H2 E). - destruct Ha as [H1 H2]. exact (all_swap_frame T n o a v x W H1 H2 E).
  - destruct Ha as (H1 & H2 & H3). exact (all_cas_frame T n success failure a current new x W H1 H2 H3 E).
  - destruct Ha as (H1 & H2 & H3). exact (all_casw_frame T n success failure a current new x W H1 H2 H3 E).
Qed.
Lemma every_ran {A} T (f : fn A) P t t' sf : every_step T f P -> ran T f t t' sf -> Forall P t /\ (at_exit (f_prog f) sf -> Forall P t').
Proof.
  intros G R. unfold every_step in G. inversion R as [os s0 ? ? E Hw Hp Hi X | ie os s0 m0 ? cur ? E Hw Hm Hp Hi X]; subst;
  destruct T; cbn [t_ie t_e] in *; try discriminate E; try (injection E as <-);
  try (specialize (G os s0 Hw Hp Hi); rewrite X in G; tauto);
  (specialize (G os s0 m0 Hw Hm Hp Hi); rewrite X in G; destruct G as [G1 G2]; split; [exact G1|]; intros EX; apply Forall_app; auto).
Qed.
Theorem C06_neighbours_untouched T c t s x y b : t_wf T -> op_args T c -> call_run T c t s -> In (x, y) t ->
  b < fst (op_cell c) \/ fst (op_cell c) + op_size c <= b -> y b = x b.
Proof.
  intros W Ha R I Hb. assert (snd (op_cell c) = op_size c) as Es by (destruct c; reflexivity).
  assert (Forall (only_cell (fst (op_cell c)) (snd (op_cell c))) t) as F.
  { inversion R; subst; try (apply Forall_nil); match goal with I0 : op_impl T c = Impl ?f, X : ran T ?f _ _ _ |- _ => destruct (every_ran _ _ _ _ _ _ (op_frame T c f W Ha I0) X) as [Q1 Q2]; auto end. }
  rewrite Forall_forall in F. apply F in I. apply I. rewrite Es. lia.
Qed.

(* C09 *)
Theorem C09_panic_iff_senseless T c t s : t_wf T -> t_gate T (op_size c) = Ret tt -> call_run T c t s -> (s = Panicked <-> senseless c) /\ (s = Panicked -> t = []).
Proof.
  intros W G R.
  assert (op_check c = Panic <-> senseless c) as E.
  { destruct c; cbn; [destruct o|destruct o| |destruct success, failure|destruct success, failure]; cbn; split; intros X; try discriminate; try tauto; try (destruct X; discriminate). }
  assert (op_pre T c = Panic <-> op_check c = Panic) as P. { unfold op_pre. rewrite G. destruct (op_check c); split; try discriminate; auto. }
  inversion R as [H|H U|f ? t' sf H I X|f t0 ? sf r H I X Ex O|f t0 ? sf H I X Ex O|f H I X]; subst;
  try (split; [rewrite <- E, <- P; split; intros; congruence|intros; congruence]).
  exfalso. revert U. apply op_reachable, op_pre_check with T, H.
Qed.
(* C10 *)
Theorem C10_accepted_orderings_implemented T c : ~ senseless c -> op_impl T c <> Unreachable.
Proof.
  intros H. apply op_reachable. destruct c; cbn in *; [destruct o|destruct o| |destruct success, failure|destruct success, failure]; cbn; tauto.
Qed.
(* C11 *)
Theorem C11_upgrade_least success failure : let o := upgrade_success_ordering success failure in
  failure <> Release -> failure <> AcqRel ->
  at_least o success /\ at_least o failure /\ forall o', at_least o' success -> at_least o' failure -> at_least o' o.
Proof.
  intros o H1 H2. unfold o, at_least. split; [|split]; [| |intros o']; destruct success, failure; cbn; try contradiction; try (repeat split; congruence);
  destruct o'; cbn; intuition congruence.
Qed.

(* C19.  Partial: not compare_exchange on m68k, where the promise is false (mk_cas_success_ub, mk_cas_refuted). *)
Theorem C19_no_false_promise_partial T c t s : t_wf T -> op_args T c ->
  match c with OCas _ _ _ _ _ _ | OCasWeak _ _ _ _ _ _ => cas_seq_byte T = false | _ => True end ->
  call_run T c t s -> s <> UB.
Proof.
  intros W Ha S R ->. destruct (op_broken T c) eqn:B; [|now apply api_call in R].
  destruct c as [| | |n su fa a cur new|]; cbn [op_broken] in B; try discriminate; [|congruence]. rewrite S, Bool.orb_false_r in B.
  assert (forall f, op_impl T (OCas n su fa a cur new) = Impl f -> exists sp, is_atomic T f sp) as G.
  { intros f H. cbn [op_impl] in H. apply impl_map_inv in H. destruct H as (x & E & ->).
    exists (op_spec (t_e T) (OCasWeak n su fa a cur new)). eapply is_atomic_fmap; [|exact (upper_bits_weak T n su fa a cur new x W B E)]. intros m m' [v ok]; auto. }
  inversion R as [| | | |f t0 ? sf H I X Ex O|f H I X]; subst; destruct (G f I) as [sp At].
  - destruct (atomic_ran _ _ _ _ _ _ At X) as [_ Q]. destruct (Q Ex) as (r & Hr & _). congruence.
  - eapply atomic_stuck; eauto.
Qed.
(* m68k: whenever the cell holds `current`, compare_exchange is undefined behaviour *)
Theorem C19_m68k_refuted n so fo a old new : (n = 1 \/ n = 2 \/ n = 4) -> 0 <= old < 2 ^ (8 * n) -> 0 <= new < 2 ^ (8 * n) -> fo <> Release -> fo <> AcqRel ->
  exists t, call_run (M68k true) (OCas n so fo a old new) t UB.
Proof.
  intros N Ho Hn F1 F2. set (m := wr BE (fun _ => 0) a n old).
  assert (wf_mem m) as Hm by (apply wf_wr; intros x; cbn; lia).
  set (o := mkor m true 0). set (g := fun r => match r with Dst => a | Out => old | New => new | _ => 0 end).
  assert (2 ^ (8 * n) <= 2 ^ 32) as Hp by (apply Z.pow_le_mono_r; lia).
  assert (f_in (mk_cas_fn n a old new) g) as Hg.
  { cbn [f_in mk_cas_fn]. unfold g, opnd. repeat split; try lia; apply low_id; lia. }
  assert (rd BE m a n = old) as Hr by (unfold m; rewrite rd_wr_same by (auto; try lia; intros x; cbn; lia); apply low_id; auto).
  assert (wf_oracles [o; o]) as Hwo by (constructor; [exact Hm|constructor; [exact Hm|constructor]]).
  destruct (run BE (f_prog (mk_cas_fn n a old new)) [o; o] (mkst 0 g None)) as [t sf|] eqn:R.
  2:{ exfalso. revert R. unfold mk_cas_fn. unfm. cbn [run f_prog nth_error pc]. cbnx. discriminate. }
  assert (at_exit (f_prog (mk_cas_fn n a old new)) sf) as Hx.
  { revert R. unfold mk_cas_fn. unfm. cbn [run f_prog nth_error pc]. cbnx. intros R. inversion R. reflexivity. }
  exists t. eapply cr_ub with (f := fmap (fun r => RCas (fst r) (snd r)) (mk_cas_fn n a old new)) (sf := sf) (t := t).
  - cbn. destruct so, fo; try reflexivity; contradiction.
  - cbn [op_impl t_cas]. unfold mk_cas_. destruct N as [->|[->| ->]]; reflexivity.
  - eapply ran_mp with (s0 := mkst O g None); eauto.
  - exact Hx.
  - cbn [f_out fmap]. rewrite (mk_cas_success_ub n a old new [o; o] (mkst 0 g None) t sf); auto; lia.
Qed.
(* ... and the memory effect is still the right one *)
Theorem C04_m68k_modulo_promise i n so fo a old new f : t_cas (M68k i) n so fo a old new = Impl f ->
  exists f', f_prog f' = f_prog f /\ f_in f' = f_in f /\ (forall g r, f_out f g = Some r -> f_out f' g = Some r) /\
             is_atomic (M68k i) f' (cas_spec BE a n old new).
Proof. exact (m68k_cas_atomic_modulo_promise i n so fo a old new f). Qed.
(* C04 is false for 32-bit cells of riscv64, loongarch64 and mips64 *)
Theorem C04_riscv64_refuted : exists c f, rv_wf c /\ t_cas (Riscv c) 4 SeqCst SeqCst 0 (2 ^ 31) 0 = Impl f /\
  ~ is_atomic (Riscv c) f (cas_spec LE 0 4 (2 ^ 31) 0).
Proof. exact rv_cas_32_on_64_refuted. Qed.
Theorem C04_loongarch64_refuted : exists c f, la_wf c /\ t_cas (Loongarch c) 4 SeqCst SeqCst 0 (2 ^ 31) 0 = Impl f /\
  ~ is_atomic (Loongarch c) f (cas_spec LE 0 4 (2 ^ 31) 0).
Proof. exact la_cas_32_refuted. Qed.
Theorem C04_mips64_refuted : exists c f, mi_wf c /\ t_cas (Mips c) 4 SeqCst SeqCst 0 (2 ^ 31) 0 = Impl f /\
  ~ is_atomic (Mips c) f (cas_spec (mi_e c) 0 4 (2 ^ 31) 0).
Proof. exact mi_cas_32_on_64_refuted. Qed.

(* C20: two solo executions of the same call, with any register contents the operands allow (in particular any upper bits of
   narrow operands, see [opnd]) and any unspecified values: same result, same memory.  Partial: the cases of C04. *)
Lemma op_spec_fun e c m m1 m2 r1 r2 : match c with OCasWeak _ _ _ _ _ _ => False | _ => True end ->
  op_spec e c m m1 r1 -> op_spec e c m m2 r2 -> r1 = r2 /\ meq m1 m2.
Proof.
  intros K H1 H2. destruct c, r1, r2; cbn in *; try contradiction; unfold load_spec, store_spec, swap_spec, cas_spec in *; cbn in *.
  - destruct H1 as [-> M1], H2 as [-> M2]. split; auto. eapply meq_trans; [apply meq_sym|]; eauto.
  - split; auto. eapply meq_trans; [eauto|apply meq_sym; eauto].
  - destruct H1 as [-> M1], H2 as [-> M2]. split; auto. eapply meq_trans; [eauto|apply meq_sym; eauto].
  - destruct H1 as [-> H1], H2 as [-> H2]. destruct ok, ok0; destruct H1 as [E1 M1], H2 as [E2 M2]; try congruence;
    (split; [reflexivity|eapply meq_trans; [eauto|apply meq_sym; eauto]]).
Qed.
Theorem C20_independent_of_garbage_partial T c f m js1 js2 s1 s2 : t_ie T = None -> t_wf T -> op_args T c -> op_broken T c = false -> op_impl T c = Impl f ->
  match c with OCasWeak _ _ _ _ _ _ => False | _ => True end ->
  wf_mem m -> (51 <= length js1)%nat -> (51 <= length js2)%nat -> pc s1 = O -> pc s2 = O -> f_in f (rf s1) -> f_in f (rf s2) ->
  exists m1 m2 s1' s2' r, alone (t_e T) (f_prog f) js1 m s1 = Some (m1, s1') /\ alone (t_e T) (f_prog f) js2 m s2 = Some (m2, s2') /\
    at_exit (f_prog f) s1' /\ at_exit (f_prog f) s2' /\ f_out f (rf s1') = Some r /\ f_out f (rf s2') = Some r /\ meq m1 m2.
Proof.
  intros HT W Ha Hb I K Hm L1 L2 P1 P2 I1 I2.
  destruct (solo_call T c f m js1 s1 HT W Ha Hb I Hm L1 P1 I1) as (m1 & s1' & r1 & A1 & X1 & O1 & S1).
  destruct (solo_call T c f m js2 s2 HT W Ha Hb I Hm L2 P2 I2) as (m2 & s2' & r2 & A2 & X2 & O2 & S2).
  destruct (op_spec_fun _ _ _ _ _ _ _ K S1 S2) as [<- M]. exists m1, m2, s1', s2', r1. auto 10.
Qed.

(* C22 *)
Theorem C22_solo_termination T c f m js s0 : t_ie T = None -> t_wf T -> op_args T c -> op_impl T c = Impl f ->
  wf_mem m -> (51 <= length js)%nat -> pc s0 = O -> f_in f (rf s0) ->
  exists m' s', alone (t_e T) (f_prog f) js m s0 = Some (m', s') /\ at_exit (f_prog f) s'.
Proof.
  intros HT W Ha I Hm L P Hi. pose proof (op_ends T c f W Ha I) as En. destruct T; cbn [t_ie ends_alone] in *; try discriminate HT; exact (En js m s0 Hm P Hi L).
Qed.
(* on AVR and MSP430: under every interrupt schedule *)
Theorem C22_interrupt_targets_terminate T ie c f os s0 c0 : t_ie T = Some ie -> t_wf T -> op_args T c -> op_impl T c = Impl f ->
  (51 <= length os)%nat -> pc s0 = O -> f_in f (rf s0) ->
  exists t cur sf, run_irq LE (f_prog f) ie os c0 s0 = Some (t, cur, sf) /\ at_exit (f_prog f) sf.
Proof.
  intros HT W Ha I L P Hi. pose proof (op_ends T c f W Ha I) as En. destruct T; cbn [t_ie ends_alone] in *; try discriminate HT; injection HT as <-; exact (En os s0 c0 P Hi L).
Qed.
