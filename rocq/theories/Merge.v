(* C39, C40: what "an interleaving" of the threads' actions means, and how one is obtained from an order on them. *)
From Verif Require Export Graph Topo Replay.
From Coq Require Import Permutation Sorted.

(* ---- specification ---- *)
(* [P t]: what thread [t] has still to do.  Some interleaving of the threads, in which each action takes effect at once on one memory as [step]
   says, takes the memory from [m] to [mf]. *)
Inductive merged {A} (step : A -> mem -> mem -> Prop) : (nat -> list A) -> mem -> mem -> Prop :=
| mg_done P m : (forall t, P t = []) -> merged step P m m
| mg_step P P' t a l m m' mf : P t = a :: l -> P' t = l -> (forall t', t' <> t -> P' t' = P t') -> step a m m' -> merged step P' m' mf -> merged step P m mf.
(* an access of code outside the library: a read finds what is in memory, a write puts its bytes there *)
Definition plain_step (v : ev) (m m' : mem) : Prop :=
  if e_w v then forall b, (covers v b -> m' b = e_b v b) /\ (~ covers v b -> m' b = m b)
  else (forall b, covers v b -> e_b v b = m b) /\ meq m' m.
(* the accesses of a piece of code, of a thread outside the library *)
Definition accs (its : list item) : list ev := flat_map (fun i => match i with IE v => [v] | _ => [] end) its.
Definition plains (l : list seg) : list ev := flat_map (fun s => match s with Call _ _ _ => [] | Code its => accs its end) l.
(* [x] is the access [v] of code outside the library *)
Definition plain_at (G : graph) (x : eid) (v : ev) : Prop :=
  exists q its i, nth_error (g_thr G (fst x)) q = Some (Code its) /\ at_ its i v /\ snd x = (base G (fst x) q + i)%nat.

(* ---- machinery ---- *)
Section M.
Context {U A : Type} (th key : U -> nat) (act : U -> A).
Definition of_thr (t : nat) (u : U) : bool := Nat.eqb (th u) t.
Lemma mg_ext (step : A -> mem -> mem -> Prop) P P' m mf : (forall t, P t = P' t) -> merged step P m mf -> merged step P' m mf.
Proof.
  intros E H. destruct H as [P m H|P Pn t c l m m' mf H1 H2 H3 H4 H5].
  - apply mg_done. intros t. now rewrite <- E.
  - apply (mg_step step P' Pn t c l m m' mf); auto; [now rewrite <- E|]. intros t' Ne. rewrite <- E. auto.
Qed.
Lemma mg_replay (step : A -> mem -> mem -> Prop) (M : list U -> mem) S : (forall P u Q, S = P ++ u :: Q -> step (act u) (M P) (M (P ++ [u]))) ->
  forall Q P, S = P ++ Q -> merged step (fun t => map act (filter (of_thr t) Q)) (M P) (M S).
Proof.
  intros H. induction Q as [|u Q IH]; intros P E.
  - rewrite E, app_nil_r. apply mg_done. reflexivity.
  - apply (mg_step step _ (fun t => map act (filter (of_thr t) Q)) (th u) (act u) (map act (filter (of_thr (th u)) Q)) _ (M (P ++ [u]))).
    + cbn [filter]. unfold of_thr at 1. now rewrite Nat.eqb_refl.
    + reflexivity.
    + intros t' Ne. cbn [filter]. unfold of_thr at 2. rewrite (proj2 (Nat.eqb_neq _ _)); auto.
    + exact (H P u Q E).
    + apply IH. now rewrite <- app_assoc.
Qed.
Lemma collect (K : nat -> list U -> Prop) N : (forall t, (t < N)%nat -> exists l, K t l /\ Forall (fun u => th u = t) l) ->
  exists L, Forall (fun u => (th u < N)%nat) L /\ forall t, (t < N)%nat -> K t (filter (of_thr t) L).
Proof.
  induction N as [|N IH]; intros H; [exists []; split; [constructor|intros t Ht; lia]|]. destruct IH as (L & H1 & H2); [intros t Ht; apply H; lia|].
  destruct (H N ltac:(lia)) as (l & K1 & K2). exists (L ++ l). split.
  - apply Forall_app. split; [eapply Forall_impl; [|exact H1]; intros a Ha; cbv beta in *; lia|eapply Forall_impl; [|exact K2]; intros a Ha; cbv beta in *; lia].
  - intros t Ht. rewrite filter_app. destruct (Nat.eq_dec t N) as [->|Nt].
    + rewrite filter_none, filter_all; [exact K1| |].
      * eapply Forall_impl; [|exact K2]. intros a Ha. unfold of_thr. apply Nat.eqb_eq. exact Ha.
      * eapply Forall_impl; [|exact H1]. intros a Ha. unfold of_thr. apply Nat.eqb_neq. cbv beta in Ha. lia.
    + rewrite (filter_none (of_thr t) l), app_nil_r; [apply H2; lia|]. eapply Forall_impl; [|exact K2]. intros a Ha. unfold of_thr. apply Nat.eqb_neq. cbv beta in Ha. lia.
Qed.
Lemma nodup_threads L : (forall t, NoDup (map key (filter (of_thr t) L))) -> NoDup L.
Proof.
  induction L as [|n l IH]; intros H; [constructor|]. constructor.
  - intros I. specialize (H (th n)). cbn [filter] in H. unfold of_thr at 1 in H. rewrite Nat.eqb_refl in H. cbn [map] in H. apply NoDup_cons_iff in H. destruct H as [H _]. apply H.
    apply in_map. apply filter_In. split; [exact I|apply Nat.eqb_refl].
  - apply IH. intros t. specialize (H t). cbn [filter] in H. destruct (of_thr t n); [cbn [map] in H; now apply NoDup_cons_iff in H|exact H].
Qed.
Lemma same_threads (R : U -> U -> Prop) L S : (forall a b, th a = th b -> (key a < key b)%nat -> R a b) -> Permutation L S -> StronglySorted (fun a b => ~ R b a) S ->
  (forall t, StronglySorted (fun a b => (key a < key b)%nat) (filter (of_thr t) L)) -> forall t, filter (of_thr t) S = filter (of_thr t) L.
Proof.
  intros HR Pm So HL t. symmetry. apply (sorted_unique key); auto using perm_filter. apply ss_strict.
  - pose proof (ss_filter _ (of_thr t) _ So) as Z. clear - Z HR. assert (Forall (fun n => th n = t) (filter (of_thr t) S)) as Ft by (apply Forall_forall; intros n I; apply filter_In in I; destruct I as [_ I]; now apply Nat.eqb_eq).
    induction Z as [|a l Z IH F]; [constructor|]. inversion Ft as [|? ? F1 F2]; subst. constructor; auto. rewrite Forall_forall in *. intros y Y.
    destruct (Nat.le_gt_cases (key a) (key y)) as [Q|Q]; [exact Q|]. exfalso. apply (F y Y). apply HR; [now rewrite (F2 y Y)|exact Q].
  - apply Permutation_NoDup with (map key (filter (of_thr t) L)); [apply Permutation_map; now apply perm_filter|now apply ss_nodup].
Qed.
End M.
Lemma mg_weaken {A} (step step' : A -> mem -> mem -> Prop) P m mf : merged step P m mf -> (forall t a m m', In a (P t) -> step a m m' -> step' a m m') -> merged step' P m mf.
Proof.
  induction 1 as [P m H|P Pn t a l m m' mf H1 H2 H3 H4 H5 IH]; intros K; [now apply mg_done|].
  apply (mg_step step' P Pn t a l m m' mf); auto; [apply (K t); [rewrite H1; now left|exact H4]|]. apply IH. intros t' a' m1 m2 I. apply (K t').
  destruct (Nat.eq_dec t' t) as [->|Ne]; [rewrite H1; right; now rewrite <- H2|now rewrite <- (H3 t' Ne)].
Qed.
(* the positions of the accesses of a thread outside the library *)
Section L.
Context (G : graph).
Lemma accs_list t q its : nth_error (g_thr G t) q = Some (Code its) -> exists l : list (eid * ev), map snd l = accs its /\ Forall (fun u => plain_at G (fst u) (snd u)) l /\
  Forall (fun u => fst (fst u) = t /\ (base G t q <= snd (fst u) < base G t (S q))%nat) l /\ StronglySorted (fun a b => (snd (fst a) < snd (fst b))%nat) l /\
  forall i v, at_ its i v -> In ((t, (base G t q + i)%nat), v) l.
Proof.
  intros C. assert (length its = (base G t (S q) - base G t q)%nat /\ (base G t q <= base G t (S q))%nat) as [Le Ge]. { destruct (seg_split G _ _ _ C) as (_ & _ & _ & _ & B). cbn [seg_its] in B. lia. }
  assert (forall suf pre, its = pre ++ suf -> exists l : list (eid * ev), map snd l = accs suf /\ Forall (fun u => plain_at G (fst u) (snd u)) l /\
    Forall (fun u => fst (fst u) = t /\ (base G t q + length pre <= snd (fst u) < base G t (S q))%nat) l /\ StronglySorted (fun a b => (snd (fst a) < snd (fst b))%nat) l /\
    forall i v, at_ suf i v -> In ((t, (base G t q + length pre + i)%nat), v) l) as K.
  { induction suf as [|s suf IH]; intros pre E.
    - exists []. repeat split; try constructor. intros i v H. destruct i; discriminate H.
    - destruct (IH (pre ++ [s])) as (l & H1 & H2 & H3 & H4 & H5); [now rewrite <- app_assoc|]. rewrite app_length in H3, H5. cbn [length] in H3, H5.
      assert (length pre < length its)%nat as Ll by (rewrite E, app_length; cbn; lia).
      assert (forall i v, at_ (s :: suf) (S i) v -> In ((t, (base G t q + length pre + S i)%nat), v) l) as H5'.
      { intros i v A. specialize (H5 i v A). now replace (base G t q + length pre + S i)%nat with (base G t q + (length pre + 1) + i)%nat by lia. }
      assert (forall u : eid * ev, fst (fst u) = t /\ (base G t q + (length pre + 1) <= snd (fst u) < base G t (S q))%nat -> fst (fst u) = t /\ (base G t q + length pre <= snd (fst u) < base G t (S q))%nat) as Wk by (intros u [? ?]; split; [auto|lia]).
      destruct s as [v| | |].
      + exists (((t, (base G t q + length pre)%nat), v) :: l). split; [cbn; now rewrite H1|]. split; [constructor; auto; exists q, its, (length pre); cbn [fst snd]; split; [exact C|]; split; [|reflexivity]|].
        { unfold at_. rewrite E, nth_error_app2, Nat.sub_diag by lia. reflexivity. }
        split; [constructor; [cbn [fst snd]; split; [reflexivity|lia]|exact (Forall_impl _ Wk H3)]|]. split; [constructor; auto; eapply Forall_impl; [|exact H3]; intros a [_ Ha]; cbn [fst snd]; lia|].
        intros i v' A. destruct i as [|i]; [left; unfold at_ in A; cbn in A; injection A as ->; now rewrite Nat.add_0_r|right; now apply H5'].
      + exists l. repeat (split; [auto; exact (Forall_impl _ Wk H3)|]). intros i v A. destruct i as [|i]; [discriminate A|now apply H5'].
      + exists l. repeat (split; [auto; exact (Forall_impl _ Wk H3)|]). intros i v A. destruct i as [|i]; [discriminate A|now apply H5'].
      + exists l. repeat (split; [auto; exact (Forall_impl _ Wk H3)|]). intros i v A. destruct i as [|i]; [discriminate A|now apply H5']. }
  destruct (K its [] eq_refl) as (l & H1 & H2 & H3 & H4 & H5). cbn [length] in *. exists l. split; [exact H1|]. split; [exact H2|]. split; [eapply Forall_impl; [|exact H3]; intros u [? ?]; split; [auto|lia]|].
  split; [exact H4|]. intros i v A. specialize (H5 i v A). now rewrite Nat.add_0_r in H5.
Qed.
Lemma ss_join {B} (R : B -> B -> Prop) l1 l2 : StronglySorted R l1 -> StronglySorted R l2 -> (forall a b, In a l1 -> In b l2 -> R a b) -> StronglySorted R (l1 ++ l2).
Proof.
  induction 1 as [|a l1 S IH F]; intros S2 H; [exact S2|]. cbn. constructor; [apply IH; auto; intros x y X Y; apply H; [now right|auto]|].
  rewrite Forall_forall in *. intros x X. apply in_app_or in X. destruct X as [X|X]; [auto|apply H; [now left|exact X]].
Qed.
Lemma plains_list t : exists l : list (eid * ev), (map snd l = plains (g_thr G t) /\ Forall (fun u => plain_at G (fst u) (snd u)) l /\
  StronglySorted (fun a b => (snd (fst a) < snd (fst b))%nat) l /\ forall x v, plain_at G x v -> fst x = t -> In (x, v) l) /\ Forall (fun u => fst (fst u) = t) l.
Proof.
  assert (forall suf pre, g_thr G t = pre ++ suf -> exists l : list (eid * ev), map snd l = plains suf /\ Forall (fun u => plain_at G (fst u) (snd u)) l /\
    StronglySorted (fun a b => (snd (fst a) < snd (fst b))%nat) l /\ Forall (fun u => fst (fst u) = t /\ (base G t (length pre) <= snd (fst u))%nat) l /\
    forall q its i v, nth_error suf q = Some (Code its) -> at_ its i v -> In ((t, (base G t (length pre + q) + i)%nat), v) l) as K.
  { induction suf as [|s suf IH]; intros pre E.
    - exists []. repeat split; try constructor. intros q its i v H. destruct q; discriminate H.
    - destruct (IH (pre ++ [s])) as (l & H1 & H2 & H3 & H4 & H5); [now rewrite <- app_assoc|]. rewrite app_length in H4, H5. cbn [length] in H4, H5. replace (length pre + 1)%nat with (S (length pre)) in * by lia.
      assert (nth_error (g_thr G t) (length pre) = Some s) as Hs by (rewrite E, nth_error_app2, Nat.sub_diag by lia; reflexivity).
      assert (forall q its i v, nth_error suf q = Some (Code its) -> at_ its i v -> In ((t, (base G t (length pre + S q) + i)%nat), v) l) as H5'.
      { intros q its i v Hq A. specialize (H5 q its i v Hq A). now replace (length pre + S q)%nat with (S (length pre) + q)%nat by lia. }
      pose proof (base_mono G t (length pre) (S (length pre)) ltac:(lia)) as Bm. destruct s as [c r its|its].
      + exists l. split; auto. split; auto. split; auto. split; [eapply Forall_impl; [|exact H4]; intros u [? ?]; split; [auto|lia]|]. intros [|q] its' i v Hq A; [discriminate Hq|]. exact (H5' q its' i v Hq A).
      + destruct (accs_list t (length pre) its Hs) as (l0 & A1 & A2 & A3 & A4 & A5). exists (l0 ++ l). split; [rewrite map_app, A1, H1; reflexivity|]. split; [apply Forall_app; auto|].
        split; [apply ss_join; auto; intros a b Ia Ib; rewrite Forall_forall in A3, H4; destruct (A3 a Ia) as [_ ?], (H4 b Ib) as [_ ?]; lia|].
        split; [apply Forall_app; split; [eapply Forall_impl; [|exact A3]; intros u [? ?]; split; [auto|lia]|eapply Forall_impl; [|exact H4]; intros u [? ?]; split; [auto|lia]]|].
        intros [|q] its' i v Hq A; apply in_or_app; [left|right; exact (H5' q its' i v Hq A)]. cbn in Hq. injection Hq as <-. rewrite Nat.add_0_r. exact (A5 i v A). }
  destruct (K (g_thr G t) [] eq_refl) as (l & H1 & H2 & H3 & H4 & H5). exists l. split; [|eapply Forall_impl; [|exact H4]; intros u [? _]; auto]. split; [exact H1|]. split; [exact H2|]. split; [exact H3|].
  intros [t' k] v (q & its & i & Hq & A & E) Et. cbn [fst snd] in *. subst t' k. exact (H5 q its i v Hq A).
Qed.
End L.
