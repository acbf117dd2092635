(* L3: invariants of runs of a block in which nothing was written; used where the outcome of a block is recomputed from registers at its
   end (arch_legacy/loongarch.rs) or a retry is decided by a value that is only known not to be zero (arch_legacy/arm_linux.rs).
   Proof machinery, no specifications. *)
From Verif Require Import Order.

Lemma in_write its v : In (IE v) its -> e_w v = true -> exists k, is_write its k.
Proof. intros H W. apply In_nth_error in H. destruct H as [k H]. exists k, v. split; auto. Qed.
Lemma wrote_emit M e i o s t l : wrote e i o s = true -> exists k, is_write (emit M e i o s t ++ l) k.
Proof.
  intros H. destruct i; try discriminate H; cbn [wrote emit] in *.
  - eapply in_write; [apply in_or_app; left; left; reflexivity|reflexivity].
  - rewrite H. eapply in_write; [apply in_or_app; left; apply in_or_app; right; left; reflexivity|reflexivity].
  - rewrite H. eapply in_write; [apply in_or_app; left; apply in_or_app; right; left; reflexivity|reflexivity].
  - destruct (wfun _ _ _) as [w|] eqn:E; [|discriminate H].
    eapply in_write; [apply in_or_app; left; apply in_or_app; right; apply in_or_app; right; left; reflexivity|reflexivity].
Qed.
Lemma irun_floyd M e p (J : nat -> regs -> Prop) :
  (forall s o i s' m', nth_error p (pc s) = Some i -> J (pc s) (rf s) -> exec e p i o s = Some (s', m') -> wrote e i o s = false -> J (pc s') (rf s')) ->
  forall os s t its sf, irun M e p os s t = Some (its, sf) -> (forall k, ~ is_write its k) -> J (pc s) (rf s) -> J (pc sf) (rf sf).
Proof.
  intros St. induction os as [|o os IH]; intros s t its sf R N H; cbn [irun] in R; [now injection R as <- <-|].
  destruct (nth_error p (pc s)) as [i|] eqn:E; [|now injection R as <- <-].
  destruct (exec e p i o s) as [[s' m']|] eqn:X; [|discriminate R].
  destruct (irun M e p os s' (t_step M i t)) as [[l sf']|] eqn:R'; [|discriminate R]. injection R as <- <-.
  destruct (wrote e i o s) eqn:W; [destruct (wrote_emit M e i o s t l W) as [k K]; now apply N in K|].
  apply (IH s' _ _ _ R').
  - intros k (v & A & Wv). apply (N (length (emit M e i o s t) + k)%nat). exists v. split; auto. unfold at_ in *. rewrite nth_error_app2 by lia.
    replace (length (emit M e i o s t) + k - length (emit M e i o s t))%nat with k by lia. exact A.
  - eapply St; eauto.
Qed.
(* [never]: a run that wrote nothing does not reach the end; otherwise it reports failure *)
Lemma ord_nw {A} T c (g : A -> rval) (f : fn A) keep (never : bool) :
  (forall j, check (arch_mm T) (f_prog f) keep [] None None
     (fun q _ => if q_ws q then goodb T c true q && goodb T c false q else never || goodb T c false q) j = true) ->
  (forall os s0 its sf x, pc s0 = O -> irun (arch_mm T) (t_e T) (f_prog f) os s0 tn0 = Some (its, sf) -> at_exit (f_prog f) sf ->
     f_out f (rf sf) = Some x -> (forall k, ~ is_write its k) -> never = false /\ rok (g x) = false) ->
  ord_fn T c g f.
Proof.
  intros C K os s0 its sf r P0 R E O. apply good1_ordered. change (good T c r (mon (arch_mm T) (map abs its)) = true).
  destruct (f_out f (rf sf)) as [x|] eqn:Eo; [|discriminate O]. injection O as <-.
  destruct (check_sound _ _ _ _ _ _ _ _ (brs_none _) C os s0 its sf P0 R E) as (v & _ & G).
  unfold good. rewrite eff_rok. change (goodb T c (rok (g x)) (mon (arch_mm T) (map abs its)) = true).
  destruct (q_ws (mon (arch_mm T) (map abs its))) eqn:W.
  - apply andb_true_iff in G. destruct (rok (g x)); tauto.
  - destruct (K os s0 its sf x P0 R E Eo (i_ws _ _ _ (inv_mon (arch_mm T) its) W)) as [-> ->]. exact G.
Qed.
(* step through the instructions of a concrete block (unfold the instructions of the block first) *)
Ltac fstep := intros [k f r] o i s' m' N H X W; cbn [pc rf] in *;
  do 30 (try (destruct k as [|k]; [cbn [nth_error] in N; injection N as <-; cbn [exec pc rf rs target find_fwd find_bwd skipn Nat.eqb] in X; cbn [wrote pc rf rs] in W|]));
  try (destruct k; discriminate N).
