(* L3: the accesses of the powerpc blocks are ordered as the ordering argument asks (all orders, all sizes, all configurations) *)
From Verif Require Import Order Arch_powerpc P_powerpc All_progress.
Ltac ppt H := cbn [with_table pp_rmw_tbl pp_cas_tbl pp_load_tbl pp_store_tbl upgrade_success_ordering] in H.

(* the last instruction of a block that ends with mfcr *)
Lemma last_mfcr M e q r : CCR <> r -> forall os s t its sf, (pc s <= length q)%nat ->
  irun M e (q ++ [mfcr r]) os s t = Some (its, sf) -> at_exit (q ++ [mfcr r]) sf -> exists j, rf sf r = mfcr_val j (rf sf CCR).
Proof.
  intros Nr. assert (length (q ++ [mfcr r]) = S (length q)) as Lp by (rewrite app_length; cbn [length]; lia).
  induction os as [|o os IH]; intros s t its sf P R E; cbn [irun] in R.
  - injection R as _ <-. unfold at_exit in E. lia.
  - destruct (Nat.eq_dec (pc s) (length q)) as [Ep|N].
    + rewrite nth_error_app2, Ep, Nat.sub_diag in R by lia. cbn [nth_error] in R. cbn [exec mfcr] in R.
      assert (nth_error (q ++ [mfcr r]) (S (length q)) = None) as Hn by (apply nth_error_None; lia).
      destruct os as [|o' os']; cbn [irun pc] in R; rewrite ?Ep, ?Hn in R; injection R as _ <-; cbn [rf]; exists (o_junk o); cbn [map]; unfold upd;
        rewrite (proj2 (rbeq r r) eq_refl); (destruct (reg_beq CCR r) eqn:Eb; [apply rbeq in Eb; contradiction|reflexivity]).
    + destruct (nth_error (q ++ [mfcr r]) (pc s)) as [i|] eqn:Hi; [|apply nth_error_None in Hi; lia].
      destruct (exec e (q ++ [mfcr r]) i o s) as [[s' m']|] eqn:X; [|discriminate R].
      assert (pc s' <= length q)%nat as P'.
      { assert (pc s' = S (pc s) \/ pc s' < length (q ++ [mfcr r]))%nat as [D|D].
        { destruct i; cbn [exec] in X;
          repeat match type of X with
            | (if ?b then _ else _) = _ => destruct b
            | match target ?p ?k ?l with _ => _ end = _ => destruct (target p k l) eqn:Et; [apply target_lt in Et; [|lia]|discriminate X]
            | (let '(_, _) := ?x in _) = _ => destruct x end;
          injection X as <- _; cbn [pc]; auto. }
        - lia. - lia. }
      destruct (irun M e (q ++ [mfcr r]) os s' (t_step M i t)) as [[l sf']|] eqn:R'; [|discriminate R]. injection R as _ <-.
      exact (IH _ _ _ _ P' R' E).
Qed.
Definition okC (v : av) : option bool := match look [CCR] v CCR with Some 0 => Some false | Some 1 => Some true | _ => None end.
Lemma okC_spec {A} T c (g : A -> rval) (f : fn A) q r : CCR <> r -> f_prog f = q ++ [mfcr r] ->
  (forall h x, f_out f h = Some x -> rok (g x) = test_cr0_eq (h r)) ->
  brs_ok (f_prog f) [CCR] None None ->
  (forall j, check (arch_mm T) (f_prog f) [CCR] [CCR] None None (goodv T c okC) j = true) -> ord_fn T c g f.
Proof.
  intros Nr Ef O B C. eapply ord_intro; [exact B|exact C|]. intros os s0 its sf v x b P0 Rn E Ag Out_ K. rewrite (O _ _ Out_).
  rewrite Ef in Rn, E. destruct (last_mfcr _ _ q r Nr os s0 _ _ _ ltac:(lia) Rn E) as (j & ->).
  unfold okC in K. destruct (look [CCR] v CCR) as [z|] eqn:L; [|discriminate K]. rewrite (Ag CCR z L).
  destruct z as [|[| |]|]; try discriminate K; injection K as <-; [apply mfcr_zero|apply mfcr_one].
Qed.
Lemma b2z01 b : b2z b = 0 \/ b2z b = 1.
Proof. destruct b; auto. Qed.
Ltac brok := unfold brs_ok; cbn [f_prog pp_cas_fn pp_casw_fn pp_cas_sub_fn pp_casw_sub_fn pp_cas128_fn pp_casw128_fn lqarx stqcx pp_e]; repeat apply Forall_cons; try apply Forall_nil;
  first [exact Logic.I | intros Hd; discriminate Hd | intros _ j [|x [|y [|]]]; cbn [op2 fst snd]; first [apply b2z01|left; reflexivity] | idtac].
Ltac okc q := eapply (okC_spec _ _ _ _ q); [|reflexivity|intros h x O; injection O as <-; reflexivity|brok|chk]; discriminate.
Ltac ordC :=
  lazymatch goal with |- ord_fn ?T ?c ?g ?f =>
    let p := eval cbv beta iota zeta delta [f_prog pp_cas_fn pp_casw_fn pp_cas_sub_fn pp_casw_sub_fn pp_cas128_fn pp_casw128_fn create_sub_word_mask_values] in (f_prog f) in
    let q := eval cbv beta iota delta [removelast] in (removelast p) in okc q end.
Lemma pp_ord c : ord_arch (Powerpc c).
Proof.
  destruct c as [w pa qu e]. constructor.
  - intros n o a f H; unfold t_load, pp_load in H; destruct o; ppt H; splits H; injection H as <-; first [solve [ords false]|ordn].
  - intros n o a v0 f H; unfold t_store, pp_store in H; destruct o; ppt H; splits H; injection H as <-; first [solve [ords true]|ordn].
  - intros n o a v0 f H; unfold t_swap, pp_swap in H; destruct o; ppt H; splits H; injection H as <-; destruct e; ordk [CCR].
  - intros n s t a x0 y0 f [N1 N2] H; unfold t_cas, pp_cas in H; destruct s, t; try congruence; clear N1 N2; ppt H; splits H; injection H as <-; destruct e; ordC.
  - intros n s t a x0 y0 f [N1 N2] H; unfold t_casw, pp_casw in H; destruct s, t; try congruence; clear N1 N2; ppt H; splits H; injection H as <-; destruct e; ordC.
Qed.
