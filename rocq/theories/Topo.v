(* Finite relations: well-foundedness, topological sorting (no axioms).  Proof machinery. *)
From Coq Require Import List Permutation Sorted Relations.Relation_Operators Relations.Operators_Properties Lia Arith.
Import ListNotations.

Section T.
Context {A : Type} (dec : forall x y : A, {x = y} + {x <> y}).
(* a transitive irreflexive relation with finitely many predecessors is well-founded *)
Lemma fin_acc (R : A -> A -> Prop) : (forall x y z, R x y -> R y z -> R x z) -> (forall x, ~ R x x) ->
  forall n L x, length L <= n -> (forall y, R y x -> In y L) -> Acc R x.
Proof.
  intros Tr Ir. induction n as [|n IH]; intros L x E H; constructor; intros y Y.
  - destruct L; [destruct (H y Y)|cbn in E; lia].
  - apply (IH (remove dec y L)).
    + pose proof (remove_length_lt dec L y (H y Y)). lia.
    + intros z Z. apply in_in_remove; [|apply H; eapply Tr; eauto]. intros ->. exact (Ir y Z).
Qed.
End T.
Section S.
Context {A : Type} (R : A -> A -> Prop).
Lemma dec_pred L h : (forall x y, In x L -> In y L -> R x y \/ ~ R x y) -> In h L -> forall L', incl L' L -> (exists y, In y L' /\ R y h) \/ forall y, In y L' -> ~ R y h.
Proof.
  intros D H. induction L' as [|a L' IH]; intros I; [right; intros y []|]. destruct IH as [(y & Y & K)|K]; [intros z Z; apply I; now right|left; exists y; split; [now right|auto]|].
  destruct (D a h) as [Q|Q]; [apply I; now left|exact H|left; exists a; split; [now left|auto]|]. right. intros y [<-|Y]; auto.
Qed.
Definition on (L : list A) (x y : A) : Prop := In x L /\ In y L /\ R x y.
Lemma walk L : (forall x y, In x L -> In y L -> R x y \/ ~ R x y) -> (forall x, ~ clos_trans _ (on L) x x) ->
  forall n h c, length L <= n + length c -> incl (h :: c) L -> NoDup (h :: c) -> (forall z, In z c -> clos_trans _ (on L) h z) ->
  exists m, In m L /\ forall y, In y L -> ~ R y m.
Proof.
  intros D Ac. induction n as [|n IH]; intros h c E I N K.
  - exfalso. pose proof (NoDup_incl_length N I) as Q. cbn in Q. lia.
  - assert (In h L) as Hh by (apply I; now left). destruct (dec_pred L h D Hh L (fun x H => H)) as [(y & Y & Q)|Q]; [|exists h; auto].
    assert (clos_trans _ (on L) y h) as Qh by (apply t_step; repeat split; auto).
    assert (forall z, In z (h :: c) -> clos_trans _ (on L) y z) as K' by (intros z [<-|Z]; [auto|apply t_trans with h; auto]).
    apply (IH y (h :: c)); [cbn; lia|intros z [<-|Z]; auto| |exact K']. constructor; [|exact N]. intros Z. exact (Ac y (K' y Z)).
Qed.
Lemma walk_min L : L <> [] -> (forall x y, In x L -> In y L -> R x y \/ ~ R x y) -> (forall x, ~ clos_trans _ (on L) x x) ->
  exists m, In m L /\ forall y, In y L -> ~ R y m.
Proof.
  intros N D Ac. destruct L as [|h L]; [congruence|]. apply (walk (h :: L) D Ac (length (h :: L)) h []); [cbn; lia|intros z [<-|[]]; now left|repeat constructor; intros []|intros z []].
Qed.
Lemma topo n : forall L, length L = n -> (forall x y, In x L -> In y L -> R x y \/ ~ R x y) -> (forall x, ~ clos_trans _ (on L) x x) ->
  exists S, Permutation L S /\ StronglySorted (fun a b => ~ R b a) S.
Proof.
  induction n as [|n IH]; intros L E D Ac.
  - destruct L; [|discriminate E]. exists []. split; constructor.
  - destruct (walk_min L) as (m & I & H); auto; [intros ->; discriminate E|]. destruct (in_split _ _ I) as (l1 & l2 & ->).
    assert (forall z, In z (l1 ++ l2) -> In z (l1 ++ m :: l2)) as Sub by (intros z Z; apply in_app_or in Z; apply in_or_app; destruct Z; [left|right; right]; auto).
    destruct (IH (l1 ++ l2)) as (S & P & K); auto.
    + rewrite app_length in *. cbn in E. lia.
    + intros x0 C0. apply (Ac x0). clear - C0 Sub. assert (forall x y, clos_trans _ (on (l1 ++ l2)) x y -> clos_trans _ (on (l1 ++ m :: l2)) x y) as H0; [|exact (H0 _ _ C0)]. intros x y C. induction C as [x y (X & Y & Q)|x y z _ C1 _ C2]; [apply t_step; split; [apply Sub; exact X|split; [apply Sub; exact Y|exact Q]]|exact (t_trans _ _ _ _ _ C1 C2)].
    + exists (m :: S). split; [apply Permutation_trans with (m :: l1 ++ l2); [symmetry; apply Permutation_middle|constructor; auto]|].
      constructor; [exact K|]. apply Forall_forall. intros y Y. apply H, Sub. apply (Permutation_in _ (Permutation_sym P)). exact Y.
Qed.
End S.
(* sorted lists with the same elements are equal *)
Lemma perm_filter {A} (f : A -> bool) l l' : Permutation l l' -> Permutation (filter f l) (filter f l').
Proof.
  induction 1 as [|x l l' P IH|x y l|l l' l'' P1 IH1 P2 IH2]; cbn; [constructor|destruct (f x); [constructor; auto|auto]|destruct (f x), (f y); try apply perm_swap; apply Permutation_refl|eapply Permutation_trans; eauto].
Qed.
Lemma sorted_unique {A} (k : A -> nat) l : forall l', Permutation l l' -> StronglySorted (fun a b => k a < k b) l -> StronglySorted (fun a b => k a < k b) l' -> l = l'.
Proof.
  induction l as [|x l IH]; intros l' P S S'; [now apply Permutation_nil in P|]. destruct l' as [|y l']; [apply Permutation_sym, Permutation_nil in P; discriminate P|].
  apply StronglySorted_inv in S. apply StronglySorted_inv in S'. destruct S as [S F], S' as [S' F']. rewrite Forall_forall in F, F'.
  assert (x = y) as ->.
  { assert (In x (y :: l')) as [E|E] by (apply (Permutation_in _ P); now left); [congruence|].
    assert (In y (x :: l)) as [E'|E'] by (apply (Permutation_in _ (Permutation_sym P)); now left); [congruence|]. pose proof (F _ E'). pose proof (F' _ E). lia. }
  f_equal. apply IH; auto. now apply Permutation_cons_inv in P.
Qed.
Lemma ss_app {A} (R : A -> A -> Prop) l1 l2 : StronglySorted R (l1 ++ l2) -> StronglySorted R l1 /\ StronglySorted R l2 /\ forall x y, In x l1 -> In y l2 -> R x y.
Proof.
  induction l1 as [|a l1 IH]; cbn; intros H; [repeat split; auto; [constructor|intros x y []]|]. apply StronglySorted_inv in H. destruct H as [H F]. destruct (IH H) as (H1 & H2 & H3).
  rewrite Forall_forall in F. split; [constructor; auto; apply Forall_forall; intros z Z; apply F, in_or_app; auto|]. split; auto.
  intros x y [<-|X] Y; [apply F, in_or_app; auto|auto].
Qed.
Lemma ss_filter {A} (R : A -> A -> Prop) f l : StronglySorted R l -> StronglySorted R (filter f l).
Proof.
  induction 1 as [|a l S IH F]; cbn; [constructor|]. destruct (f a); [|exact IH]. constructor; auto. rewrite Forall_forall in *. intros x X. apply filter_In in X. apply F, X.
Qed.
