(* C43: a call accesses shared memory only in its cell - a swap or compare_exchange of 1 or 2 bytes possibly in the aligned 4 bytes around it -
   and only at addresses that are multiples of the size of the access. *)
From Verif Require Import Api All_misc FootAll Order Examples.

(* ---- specification ---- *)
Definition an_integer (n : Z) : Prop := n = 1 \/ n = 2 \/ n = 4 \/ n = 8 \/ n = 16.    (* the sizes of the types of the crate *)
Definition is_rmw (c : op) : bool := match c with OSwap _ _ _ _ | OCas _ _ _ _ _ _ | OCasWeak _ _ _ _ _ _ => true | _ => false end.
(* the access [v] stays within the [n] bytes at [a] *)
Definition stays (v : ev) (a n : Z) : Prop := forall b, e_a v <= b < e_a v + e_n v -> a <= b < a + n.

(* what a call has accessed by some moment *)
Inductive accessed (T : arch) (c : op) : list item -> Prop :=
| ac f os s0 its sf : op_args T c -> op_impl T c = Impl f -> pc s0 = O -> f_in f (rf s0) -> irun (arch_mm T) (t_e T) (f_prog f) os s0 tn0 = Some (its, sf) -> accessed T c its.

(* ---- machinery ---- *)
Lemma op_foot T c f : t_wf T -> an_integer (snd (op_cell c)) -> op_args T c -> op_impl T c = Impl f -> footed (is_rmw c) (snd (op_cell c)) (fst (op_cell c)) f.
Proof.
  intros W N Ha H. destruct c; cbn [op_cell op_args op_impl is_rmw fst snd] in *;
  match type of H with impl_map _ ?x = _ => destruct x eqn:E; cbn [impl_map] in H; try discriminate H; injection H as <- end; apply fmap_footed.
  - exact (load_foot _ _ _ _ _ W N Ha E). - exact (store_foot _ _ _ _ _ _ W N (proj1 Ha) E). - exact (swap_foot _ _ _ _ _ _ W N (proj1 Ha) E).
  - exact (cas_foot _ _ _ _ _ _ _ _ W N (proj1 Ha) E). - exact (casw_foot _ _ _ _ _ _ _ _ W N (proj1 Ha) E).
Qed.

Lemma call_accessed T c its r : call_items T c its r -> accessed T c its.
Proof. intros [f os s0 its' sf r' Ha _ Hi _ P0 Hf R _ _]. exact (ac T c f os s0 its' sf Ha Hi P0 Hf R). Qed.

(* ---- theorems ---- *)
Theorem C43_own_cell T c its v : t_wf T -> an_integer (snd (op_cell c)) -> accessed T c its -> In (IE v) its ->
  let (a, n) := op_cell c in stays v a n \/ (is_rmw c = true /\ n < 4 /\ stays v (a - a mod 4) 4).
Proof.
  intros W N [f os s0 its' sf Ha Hi P0 Hf R] Hv. destruct (footed_items _ _ _ _ _ _ _ (op_foot T c f W N Ha Hi) _ _ _ _ Hf P0 R v Hv) as (_ & _ & K).
  destruct (op_cell c) as [a n]. cbn [fst snd] in *. unfold stays. destruct K as [(L & L')|(S & L & L' & L2)]; [left|right; split; [exact S|split; [exact L|]]]; intros b Hb; lia.
Qed.
Theorem C43_aligned T c its v : t_wf T -> an_integer (snd (op_cell c)) -> accessed T c its -> In (IE v) its -> an_integer (e_n v) /\ e_a v mod e_n v = 0.
Proof.
  intros W N [f os s0 its' sf Ha Hi P0 Hf R] Hv. destruct (footed_items _ _ _ _ _ _ _ (op_foot T c f W N Ha Hi) _ _ _ _ Hf P0 R v Hv) as (K & K' & _). auto.
Qed.
