(* L3: the order in which the instruction set guarantees the accesses of one thread to happen.  [L] is the list of all items of the
   thread in program order; positions are indices in [L]. *)
From Verif Require Export Items.

Definition at_ (L : list item) (i : nat) (v : ev) : Prop := nth_error L i = Some (IE v).
Definition is_read (L : list item) (i : nat) : Prop := exists v, at_ L i v /\ e_w v = false.
Definition is_write (L : list item) (i : nat) : Prop := exists v, at_ L i v /\ e_w v = true.
(* [i] is the most recent read before position [k] *)
Definition last_read (L : list item) (k i : nat) : Prop := (i < k)%nat /\ is_read L i /\ forall m, (i < m < k)%nat -> ~ is_read L m.
Definition last_write (L : list item) (k i : nat) : Prop := (i < k)%nat /\ is_write L i /\ forall m, (i < m < k)%nat -> ~ is_write L m.
Definition fence_at (M : mm) (L : list item) (k : nat) (wi wj : bool) : Prop :=
  (exists f, nth_error L k = Some (IF f) /\ m_ford M f wi wj = true) \/ nth_error L k = Some IFull.
Definition full_at (M : mm) (L : list item) (k : nat) : Prop :=
  (exists f, nth_error L k = Some (IF f) /\ m_full M f = true) \/ nth_error L k = Some IFull.
Definition fenced (M : mm) (L : list item) (i j : nat) : Prop :=
  exists v w k, at_ L i v /\ at_ L j w /\ (i < k < j)%nat /\ fence_at M L k (e_w v) (e_w w).
Definition ffenced (M : mm) (L : list item) (i j : nat) : Prop :=
  (exists v, at_ L i v) /\ (exists w, at_ L j w) /\ exists k, (i < k < j)%nat /\ full_at M L k.
(* control dependency followed by an instruction-synchronizing fence *)
Definition ctl_at (L : list item) (i k : nat) : Prop := nth_error L k = Some (ICtl true) /\ last_read L k i.
Definition ctl_isync (M : mm) (L : list item) (i j : nat) : Prop :=
  (exists w, at_ L j w) /\ exists k m f, (k < m < j)%nat /\ ctl_at L i k /\ nth_error L m = Some (IF f) /\ m_isync M f = true.
(* read and write of one read-modify-write *)
Definition rmw (L : list item) (i j : nat) : Prop := exists w, at_ L j w /\ e_w w = true /\ e_x w = true /\ last_read L j i.

(* [i] happens before [j], directly *)
Inductive lo (M : mm) (L : list item) (i j : nat) : Prop :=
| lo_base v w : (i < j)%nat -> at_ L i v -> at_ L j w -> m_base M (e_w v) (e_w w) = true -> lo M L i j
| lo_acq v w : (i < j)%nat -> at_ L i v -> at_ L j w -> a_aq (e_o v) = true -> lo M L i j       (* acquire: before everything later *)
| lo_rel v w : (i < j)%nat -> at_ L i v -> at_ L j w -> a_rl (e_o w) = true -> lo M L i j       (* release: after everything earlier *)
| lo_rcsc v w : (i < j)%nat -> at_ L i v -> at_ L j w -> m_rcsc M = true ->
    e_w v = true -> a_rl (e_o v) = true -> e_w w = false -> a_aq (e_o w) = true -> a_pc (e_o w) = false -> lo M L i j
| lo_fence : fenced M L i j -> lo M L i j
| lo_ctl : ctl_isync M L i j -> lo M L i j
| lo_rmw : rmw L i j -> lo M L i j.

(* The read of an operation whose block emitted [its]: the read that forms a read-modify-write with the operation's (last) write, or its
   last read if it wrote nothing.  The write of an operation: its last write. *)
Definition op_write (its : list item) (k : nat) : Prop := last_write its (length its) k.
Definition op_read (its : list item) (i : nat) : Prop :=
  (exists k, op_write its k /\ last_read its k i) \/ ((forall k, ~ is_write its k) /\ last_read its (length its) i).
(* [i] is the read an operation's write [k] goes with, and it happens first *)
Definition linked (M : mm) (its : list item) (i k : nat) : Prop :=
  (is_write its k /\ last_read its k i) /\ (rmw its i k \/ m_base M false true = true).

(* ---- facts about a position inside the block that hold whatever comes before and after the block ---- *)
Definition tailed (M : mm) (its : list item) (i : nat) : Prop :=      (* ordered before everything after the block *)
  exists v, at_ its i v /\
   (a_aq (e_o v) = true \/ (m_base M (e_w v) false && m_base M (e_w v) true = true) \/
    (exists k, (i < k)%nat /\ fence_at M its k (e_w v) false /\ fence_at M its k (e_w v) true) \/
    (exists k m f, (k < m)%nat /\ ctl_at its i k /\ nth_error its m = Some (IF f) /\ m_isync M f = true)).
Definition headed (M : mm) (its : list item) (i : nat) : Prop :=      (* ordered after everything before the block *)
  exists v, at_ its i v /\
   (a_rl (e_o v) = true \/ (m_base M false (e_w v) && m_base M true (e_w v) = true) \/
    (exists k, (k < i)%nat /\ fence_at M its k false (e_w v) /\ fence_at M its k true (e_w v))).
Definition acqd (M : mm) (its : list item) (i : nat) : Prop :=        (* ordered after every release write before the block *)
  m_rcsc M = true /\ exists k v, (k <= i)%nat /\ at_ its k v /\ e_w v = false /\ a_aq (e_o v) = true /\ a_pc (e_o v) = false.
Definition ffb (M : mm) (its : list item) (i : nat) : Prop := exists k, (k < i)%nat /\ full_at M its k.
Definition ffa (M : mm) (its : list item) (i : nat) : Prop := exists k, (i < k)%nat /\ full_at M its k.
Definition ctl_later (its : list item) (i : nat) : Prop := exists k, ctl_at its i k.
Definition rel_write (its : list item) (i : nat) : Prop := exists v, at_ its i v /\ e_w v = true /\ a_rl (e_o v) = true.

(* ---- weakening to a context ---- *)
Lemma nth_ctx {A} (pre its post : list A) i x : nth_error its i = Some x -> nth_error (pre ++ its ++ post) (length pre + i) = Some x.
Proof.
  intros H. rewrite nth_error_app2 by lia. replace (length pre + i - length pre)%nat with i by lia.
  rewrite nth_error_app1; auto. apply nth_error_Some. congruence.
Qed.
Lemma nth_ctx' {A} (pre its post : list A) i : (i < length its)%nat -> nth_error (pre ++ its ++ post) (length pre + i) = nth_error its i.
Proof. intros H. rewrite nth_error_app2 by lia. replace (length pre + i - length pre)%nat with i by lia. now rewrite nth_error_app1. Qed.
Lemma at_lt L i v : at_ L i v -> (i < length L)%nat.
Proof. intros H. apply nth_error_Some. unfold at_ in H. congruence. Qed.
Lemma fence_ctx M pre its post k a b : fence_at M its k a b -> fence_at M (pre ++ its ++ post) (length pre + k) a b.
Proof. intros [(f & H & F)|H]; [left; exists f; split; auto; now apply nth_ctx|right; now apply nth_ctx]. Qed.
Lemma full_ctx M pre its post k : full_at M its k -> full_at M (pre ++ its ++ post) (length pre + k).
Proof. intros [(f & H & F)|H]; [left; exists f; split; auto; now apply nth_ctx|right; now apply nth_ctx]. Qed.
Lemma read_ctx pre its post k : (k < length its)%nat -> (is_read (pre ++ its ++ post) (length pre + k) <-> is_read its k).
Proof. intros H. unfold is_read, at_. now rewrite nth_ctx'. Qed.
Lemma write_ctx pre its post k : (k < length its)%nat -> (is_write (pre ++ its ++ post) (length pre + k) <-> is_write its k).
Proof. intros H. unfold is_write, at_. now rewrite nth_ctx'. Qed.
Lemma last_read_ctx pre its post k i : (k <= length its)%nat -> last_read its k i -> last_read (pre ++ its ++ post) (length pre + k) (length pre + i).
Proof.
  intros Hk (H & R & N). split; [lia|]. split; [apply read_ctx; [lia|auto]|]. intros m Hm Rm.
  apply (N (m - length pre)%nat); [lia|]. apply (read_ctx pre its post); [lia|]. now replace (length pre + (m - length pre))%nat with m by lia.
Qed.
Lemma ctl_ctx pre its post i k : ctl_at its i k -> ctl_at (pre ++ its ++ post) (length pre + i) (length pre + k).
Proof.
  intros [C R]. split; [now apply nth_ctx|]. apply last_read_ctx; auto. apply Nat.lt_le_incl, nth_error_Some. congruence.
Qed.

(* everything the block's access is ordered against *)
Lemma tailed_lo M pre its post i j w : tailed M its i -> at_ (pre ++ its ++ post) j w -> (length pre + length its <= j)%nat ->
  lo M (pre ++ its ++ post) (length pre + i) j.
Proof.
  intros (v & A & H) W J. pose proof (at_lt _ _ _ A) as Hi. pose proof (nth_ctx pre its post i _ A) as A'. fold (at_ (pre ++ its ++ post) (length pre + i) v) in A'.
  destruct H as [H|[H|[(k & Hk & F0 & F1)|(k & m & f & Hk & C & F & Y)]]].
  - eapply lo_acq; eauto. lia.
  - eapply lo_base; eauto; [lia|]. apply andb_true_iff in H. destruct H, (e_w w); auto.
  - apply lo_fence. exists v, w, (length pre + k)%nat. split; auto. split; auto. assert (k < length its)%nat as Kl.
    { apply nth_error_Some. destruct F0 as [(f & -> & _)| ->]; discriminate. }
    split; [lia|]. apply fence_ctx. now destruct (e_w w).
  - apply lo_ctl. assert (m < length its)%nat as Ml by (apply nth_error_Some; congruence).
    split; [eauto|]. exists (length pre + k)%nat, (length pre + m)%nat, f. split; [lia|]. split; [now apply ctl_ctx|]. split; auto. now apply nth_ctx.
Qed.
Lemma headed_lo M pre its post i j v : headed M its i -> at_ (pre ++ its ++ post) j v -> (j < length pre)%nat ->
  lo M (pre ++ its ++ post) j (length pre + i).
Proof.
  intros (w & A & H) V J. pose proof (at_lt _ _ _ A) as Hi. pose proof (nth_ctx pre its post i _ A) as A'. fold (at_ (pre ++ its ++ post) (length pre + i) w) in A'.
  destruct H as [H|[H|(k & Hk & F0 & F1)]].
  - eapply lo_rel; eauto. lia.
  - eapply lo_base; eauto; [lia|]. apply andb_true_iff in H. destruct H, (e_w v); auto.
  - apply lo_fence. exists v, w, (length pre + k)%nat. split; auto. split; auto. split; [lia|]. apply fence_ctx. now destruct (e_w v).
Qed.
Lemma acqd_lo M pre its post i j v : acqd M its i -> (exists w, at_ its i w) -> at_ (pre ++ its ++ post) j v -> (j < length pre)%nat -> e_w v = true -> a_rl (e_o v) = true ->
  lo M (pre ++ its ++ post) j (length pre + i) \/ exists k, lo M (pre ++ its ++ post) j k /\ lo M (pre ++ its ++ post) k (length pre + i).
Proof.
  intros (Hc & k & u & Hk & A & R & Q & P) [w W] V J Vw Vr. pose proof (nth_ctx pre its post k _ A) as A'. pose proof (nth_ctx pre its post i _ W) as W'.
  assert (lo M (pre ++ its ++ post) j (length pre + k)) as L1 by (eapply lo_rcsc; eauto; lia).
  destruct (Nat.eq_dec k i) as [->|N]; [left; exact L1|]. right. exists (length pre + k)%nat. split; auto. eapply lo_acq; [|exact A'|exact W'|auto]. lia.
Qed.
Lemma ffa_ff M pre its post i j w : ffa M its i -> (exists v, at_ its i v) -> at_ (pre ++ its ++ post) j w -> (length pre + length its <= j)%nat ->
  ffenced M (pre ++ its ++ post) (length pre + i) j.
Proof.
  intros (k & Hk & F) [v A] W J. split; [exists v; now apply nth_ctx|]. split; [eauto|]. exists (length pre + k)%nat. split; [|now apply full_ctx].
  assert (k < length its)%nat by (apply nth_error_Some; destruct F as [(f & -> & _)| ->]; discriminate). lia.
Qed.
Lemma ffb_ff M pre its post i j v : ffb M its i -> (exists w, at_ its i w) -> at_ (pre ++ its ++ post) j v -> (j < length pre)%nat ->
  ffenced M (pre ++ its ++ post) j (length pre + i).
Proof.
  intros (k & Hk & F) [w A] V J. split; [eauto|]. split; [exists w; now apply nth_ctx|]. exists (length pre + k)%nat. split; [lia|now apply full_ctx].
Qed.
