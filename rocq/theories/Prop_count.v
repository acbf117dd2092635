(* C45: counters and tickets under weak memory: compare_exchange loops with any orderings, even Relaxed, lose no update. *)
From Verif Require Import Prop_sc All_atomic CellSeq Prop_cell.

(* ---- specification ---- *)
(* the call reads its cell or compares and exchanges it *)
Definition cas_only (cr : op * rval) : Prop := match fst cr with OLoad _ _ _ | OCas _ _ _ _ _ _ | OCasWeak _ _ _ _ _ _ => True | _ => False end.
(* the call is a successful compare_exchange from [x] to [y] *)
Definition wins (cr : op * rval) : option (Z * Z) :=
  match cr with (OCas _ _ _ _ x y, RCas _ true) | (OCasWeak _ _ _ _ x y, RCas _ true) => Some (x, y) | _ => None end.
(* what it adds to the cell *)
Definition gain (cr : op * rval) : Z := match wins cr with Some (x, y) => y - x | None => 0 end.
Definition won (cr : op * rval) : Z := match wins cr with Some _ => 1 | None => 0 end.
Fixpoint sum (f : op * rval -> Z) (l : list (op * rval)) : Z := match l with [] => 0 | cr :: l => f cr + sum f l end.
(* the sum over the calls of the threads before [N] *)
Fixpoint total (f : op * rval -> Z) (P : nat -> list (op * rval)) (N : nat) : Z := match N with O => 0 | S t => total f P t + sum f (P t) end.
(* [x] is the final contents of byte [b] *)
Definition final (G : graph) (b x : Z) : Prop :=
  (x = g_init G b /\ forall w, ~ writes_b G w b) \/ (exists w v, ev_at G w v /\ e_w v = true /\ covers v b /\ (forall w', ~ g_co G b w w') /\ x = e_b v b).
(* the compare_exchange calls add 1, with wrap-around *)
Definition by_one (n : Z) (cr : op * rval) : Prop :=
  match fst cr with OLoad _ _ _ => True | OCas _ _ _ _ x y | OCasWeak _ _ _ _ x y => y = (x + 1) mod 2 ^ (8 * n) | _ => False end.

(* ---- machinery ---- *)
Lemma total_one f P Q N t0 d : (t0 < N)%nat -> sum f (P t0) = d + sum f (Q t0) -> (forall t, t <> t0 -> Q t = P t) -> total f P N = d + total f Q N.
Proof.
  intros L E H. induction N as [|N IH]; [lia|]. cbn [total]. destruct (Nat.eq_dec t0 N) as [->|Ne].
  - rewrite E. assert (forall k, (k <= N)%nat -> total f P k = total f Q k) as R; [|rewrite (R N) by lia; lia].
    induction k as [|k IHk]; intros Lk; [reflexivity|]. cbn [total]. rewrite IHk, (H k) by lia. reflexivity.
  - rewrite IH, (H N) by lia. lia.
Qed.
Lemma total_none f P N : (forall t, P t = []) -> total f P N = 0.
Proof. intros H. induction N as [|N IH]; [reflexivity|]. cbn [total]. rewrite IH, H. reflexivity. Qed.
Lemma sum_won l : 0 <= sum won l.
Proof. induction l as [|cr l IH]; cbn [sum]; [lia|]. assert (0 <= won cr) by (unfold won; destruct (wins cr); lia). lia. Qed.
Lemma total_won P N : 0 <= total won P N.
Proof. induction N as [|N IH]; cbn [total]; [lia|]. pose proof (sum_won (P N)). lia. Qed.

Lemma win_step T c r m m' a n : 0 < n -> op_cell c = (a, n) -> cas_only (c, r) -> good_vals n c -> op_done T c m m' r ->
  match wins (c, r) with Some (x, y) => rd (t_e T) m a n = x /\ rd (t_e T) m' a n = y | None => rd (t_e T) m' a n = rd (t_e T) m a n end.
Proof.
  intros Pn E Co V D. rewrite op_done_as in D.
  assert (forall o w v ok, val n o /\ val n w -> casw_spec (t_e T) a n o w m m' (v, ok) ->
    if ok then rd (t_e T) m a n = o /\ rd (t_e T) m' a n = w else rd (t_e T) m' a n = rd (t_e T) m a n) as Cs.
  { intros o w v ok [_ Vw] [Q1 Q2]. cbn [fst snd] in *. destruct ok; [|now apply rd_meq]. destruct Q2 as [Q2 Q3]. split; [exact Q2|].
    rewrite (rd_meq _ _ _ _ _ Q3), rd_wr_any by lia. now rewrite (low_id _ _ Vw). }
  destruct c; cbn [cas_only fst] in Co; try contradiction Co; cbn [as_done] in D; try (match type of D with context [if ?b then _ else _] => destruct b end);
    destruct r as [| |? []]; cbn [op_cell op_spec good_vals wins] in *; try contradiction D; injection E as -> ->.
  - destruct D as [_ Q]. now apply rd_meq.
  - exact (Cs _ _ _ _ V D).
  - exact (Cs _ _ _ _ V D).
  - exact (Cs _ _ _ _ V (cas_casw _ _ _ _ _ _ _ _ D)).
  - exact (Cs _ _ _ _ V (cas_casw _ _ _ _ _ _ _ _ D)).
  - exact (Cs _ _ _ _ V D).
  - exact (Cs _ _ _ _ V D).
Qed.
Lemma il_sum T a n N P m mf : 0 < n -> interleaved (op_done T) P m mf -> (forall t, (N <= t)%nat -> P t = []) ->
  (forall t c r, In (c, r) (P t) -> op_cell c = (a, n) /\ good_vals n c /\ cas_only (c, r)) -> rd (t_e T) mf a n = rd (t_e T) m a n + total gain P N.
Proof.
  intros Pn. induction 1 as [P m H|P Pq t0 c0 r0 l m m' mf H1 H2 H3 H4 H5 IH]; intros F K; [rewrite total_none by exact H; lia|].
  destruct (K t0 c0 r0 ltac:(rewrite H1; now left)) as (E & V & Co). pose proof (win_step T c0 r0 m m' a n Pn E Co V H4) as S.
  assert (t0 < N)%nat as L. { destruct (Nat.lt_ge_cases t0 N) as [L|L]; [exact L|]. rewrite (F t0 L) in H1. discriminate H1. }
  assert (forall t', incl (Pq t') (P t')) as Inc.
  { intros t'. destruct (Nat.eq_dec t' t0) as [->|Ne]; [rewrite H1, H2; intros z Z; now right|rewrite (H3 t' Ne); apply incl_refl]. }
  rewrite IH; [|intros t Lt; destruct (Nat.eq_dec t t0) as [->|Ne]; [lia|rewrite (H3 t Ne); auto]|intros t c r J; exact (K t c r (Inc t _ J))].
  rewrite (total_one gain P Pq N t0 (gain (c0, r0)) L); [|rewrite H1, H2; reflexivity|exact H3].
  unfold gain at 2. destruct (wins (c0, r0)) as [[x y]|]; lia.
Qed.

Definition mono (P : nat -> list (op * rval)) (N : nat) (M v : Z) (k : nat -> nat -> Z) : Prop :=
  (forall t i cr x y, nth_error (P t) i = Some cr -> wins cr = Some (x, y) -> 0 <= k t i < total won P N /\ x = (v + k t i) mod M) /\
  (forall t i cr t' i' cr', nth_error (P t) i = Some cr -> nth_error (P t') i' = Some cr' -> wins cr <> None -> wins cr' <> None -> k t i = k t' i' -> t = t' /\ i = i') /\
  (forall t i cr i' cr', nth_error (P t) i = Some cr -> nth_error (P t) i' = Some cr' -> wins cr <> None -> wins cr' <> None -> (i < i')%nat -> k t i < k t i').
Lemma il_tickets T a n N P m mf : 0 < n -> interleaved (op_done T) P m mf -> (forall t, (N <= t)%nat -> P t = []) ->
  (forall t c r, In (c, r) (P t) -> op_cell c = (a, n) /\ good_vals n c /\ by_one n (c, r)) -> 0 <= rd (t_e T) m a n < 2 ^ (8 * n) ->
  exists k, mono P N (2 ^ (8 * n)) (rd (t_e T) m a n) k.
Proof.
  intros Pn. induction 1 as [P m H|P Pq t0 c0 r0 l m m' mf H1 H2 H3 H4 H5 IH]; intros F K Rm.
  { exists (fun _ _ => 0). repeat split; intros; rewrite H in *; match goal with A : nth_error [] ?i = Some _ |- _ => destruct i; discriminate A end. }
  assert (forall t c r, In (c, r) (P t) -> cas_only (c, r)) as Co.
  { intros t c r J. destruct (K t c r J) as (_ & _ & B). unfold cas_only, by_one in *. cbn [fst] in *. destruct c; tauto. }
  destruct (K t0 c0 r0 ltac:(rewrite H1; now left)) as (E & V & B). pose proof (win_step T c0 r0 m m' a n Pn E (Co t0 _ _ ltac:(rewrite H1; now left)) V H4) as Sx.
  assert (t0 < N)%nat as L. { destruct (Nat.lt_ge_cases t0 N) as [L|L]; [exact L|]. rewrite (F t0 L) in H1. discriminate H1. }
  assert (forall t', incl (Pq t') (P t')) as Inc.
  { intros t'. destruct (Nat.eq_dec t' t0) as [->|Ne]; [rewrite H1, H2; intros z Z; now right|rewrite (H3 t' Ne); apply incl_refl]. }
  assert (wins (c0, r0) = None /\ won (c0, r0) = 0 /\ rd (t_e T) m' a n = rd (t_e T) m a n \/
    won (c0, r0) = 1 /\ (forall x y, wins (c0, r0) = Some (x, y) -> x = rd (t_e T) m a n) /\ rd (t_e T) m' a n = (rd (t_e T) m a n + 1) mod 2 ^ (8 * n)) as St.
  { unfold won. destruct (wins (c0, r0)) as [[x y]|] eqn:Ew; [right|now left]. destruct Sx as [-> ->]. split; [reflexivity|]. split; [intros ? ? Q; congruence|].
    unfold by_one in B. cbn [fst] in B. destruct c0, r0 as [| |? []]; cbn [wins] in Ew; try discriminate Ew; injection Ew as <- <-; exact B. }
  assert (0 < 2 ^ (8 * n)) as PM by (apply Z.pow_pos_nonneg; lia).
  destruct IH as (k & K1 & K2 & K3).
  { intros t Lt. destruct (Nat.eq_dec t t0) as [->|Ne]; [lia|rewrite (H3 t Ne); auto]. }
  { intros t c r J. exact (K t c r (Inc t _ J)). }
  { destruct St as [(_ & _ & ->)|(_ & _ & ->)]; [exact Rm|apply Z.mod_pos_bound; lia]. }
  pose proof (total_one won P Pq N t0 (won (c0, r0)) L ltac:(rewrite H1, H2; reflexivity) H3) as Tt. pose proof (total_won Pq N) as Tp.
  assert (won (c0, r0) = 0 \/ won (c0, r0) = 1) as D01 by (destruct St as [(_ & ? & _)|(? & _)]; auto).
  pose (k' := fun t i => if Nat.eqb t t0 then match i with O => 0 | S j => won (c0, r0) + k t0 j end else won (c0, r0) + k t i).
  assert (forall t i cr, nth_error (P t) i = Some cr -> (t = t0 /\ i = O /\ cr = (c0, r0)) \/ exists j, nth_error (Pq t) j = Some cr /\ k' t i = won (c0, r0) + k t j /\ (if Nat.eqb t t0 then i = S j else i = j)) as Sh.
  { intros t1 i1 cr1 A. unfold k'. destruct (Nat.eqb_spec t1 t0) as [->|Ne]; [|right; exists i1; rewrite (H3 t1 Ne); auto].
    rewrite H1 in A. destruct i1 as [|j]; [left; injection A as <-; auto|right; exists j; rewrite H2; auto]. }
  assert (k' t0 O = 0) as K0 by (unfold k'; now rewrite Nat.eqb_refl). assert (forall t j cr, nth_error (Pq t) j = Some cr -> wins cr <> None -> 0 <= k t j) as Kp.
  { intros t j cr A W. destruct (wins cr) as [[x y]|] eqn:Ew; [|congruence]. destruct (K1 t j cr x y A Ew). lia. }
  exists k'. split; [|split].
  - intros t i cr x y A W. destruct (Sh _ _ _ A) as [(-> & -> & ->)|(j & Aj & -> & _)].
    + rewrite K0. destruct St as [(? & _)|(W1 & Q & _)]; [congruence|]. split; [lia|]. rewrite (Q _ _ W), Z.add_0_r, Z.mod_small; lia.
    + destruct (K1 _ _ _ _ _ Aj W) as [Q1 ->]. split; [lia|]. destruct St as [(_ & -> & ->)|(-> & _ & ->)]; [f_equal; lia|]. rewrite Zplus_mod_idemp_l. f_equal. lia.
  - intros t i cr t' i' cr' A A' W W' Q. destruct (Sh _ _ _ A) as [(-> & -> & ->)|(j & Aj & Ej & Ei)], (Sh _ _ _ A') as [(-> & -> & ->)|(j' & Aj' & Ej' & Ei')]; [auto| | |].
    + exfalso. rewrite K0, Ej' in Q. pose proof (Kp _ _ _ Aj' W'). destruct St as [(? & _)|(W1 & _)]; [congruence|lia].
    + exfalso. rewrite K0, Ej in Q. pose proof (Kp _ _ _ Aj W). destruct St as [(? & _)|(W1 & _)]; [congruence|lia].
    + destruct (K2 _ _ _ _ _ _ Aj Aj' W W' ltac:(lia)) as [<- <-]. split; [reflexivity|]. destruct (Nat.eqb t t0); congruence.
  - intros t i cr i' cr' A A' W W' Lt. destruct (Sh _ _ _ A) as [(-> & -> & ->)|(j & Aj & Ej & Ei)], (Sh _ _ _ A') as [(Et & -> & ->)|(j' & Aj' & Ej' & Ei')]; try lia.
    + rewrite K0, Ej'. pose proof (Kp _ _ _ Aj' W'). destruct St as [(? & _)|(W1 & _)]; [congruence|lia].
    + rewrite Ej, Ej'. pose proof (K3 _ _ _ _ _ Aj Aj' W W' ltac:(destruct (Nat.eqb t t0); lia)). lia.
Qed.

Lemma on_good T G a n : execution T G -> forall t c r, In (c, r) (on_cell a n (calls (g_thr G t))) -> op_cell c = (a, n) /\ good_vals n c.
Proof.
  intros X t c r J. destruct (on_in _ _ _ _ _ _ J) as [E (q & its & Ca)]. split; [exact E|].
  pose proof (ex_calls _ _ X _ _ _ _ _ Ca) as Ci. destruct Ci as [f ? ? ? ? ? Ar _ _ _ _ _ _ _ _]. destruct c; cbn [op_cell op_args good_vals] in *; try injection E as -> ->; tauto.
Qed.
Lemma on_none G a n N : (forall t, (N <= t)%nat -> g_thr G t = []) -> forall t, (N <= t)%nat -> on_cell a n (calls (g_thr G t)) = [].
Proof. intros H t L. rewrite (H t L). reflexivity. Qed.

(* ---- theorems ---- *)
(* If a cell is only accessed by loads and compare_exchange, its final contents are the initial ones plus all that the successful calls
   added: none is lost and none counted twice. *)
Theorem C45_sum T G a n N m : t_ie T = None -> t_wf T -> execution T G -> cells_client G -> (forall t, (N <= t)%nat -> g_thr G t = []) ->
  (exists t, on_cell a n (calls (g_thr G t)) <> []) -> (forall t cr, In cr (on_cell a n (calls (g_thr G t))) -> cas_only cr) ->
  (forall b, a <= b < a + n -> final G b (m b)) ->
  rd (t_e T) m a n = rd (t_e T) (g_init G) a n + total gain (fun t => on_cell a n (calls (g_thr G t))) N.
Proof.
  intros Ie W X C HN (t & Ne) Co Fi. destruct (C44_interleaving T G a n Ie W X C) as (mf & I & Fm).
  destruct (on_cell a n (calls (g_thr G t))) as [|[c r] l] eqn:El; [congruence|]. assert (In (c, r) (on_cell a n (calls (g_thr G t)))) as J by (rewrite El; now left).
  destruct (on_in _ _ _ _ _ _ J) as [E (q & its & Ca)]. pose proof (cc_size _ C _ _ _ _ _ Ca) as S. rewrite E in S. cbn in S.
  assert (0 < n) as Pn by (unfold an_integer in S; lia).
  rewrite <- (il_sum T a n N _ _ _ Pn I); [|exact (on_none G a n N HN)|].
  - apply rd_ext. intros b Hb. specialize (Fi (a + b) ltac:(lia)). destruct (Fm _ _ _ _ _ (a + b) Ca E ltac:(lia)) as [F1 F2].
    destruct Fi as [[-> Nw]|(w & v & A & Wv & Cv & Lw & ->)]; [now rewrite F1|now rewrite (F2 w v A Wv Cv Lw)].
  - intros t1 c1 r1 J1. destruct (on_good T G a n X t1 c1 r1 J1). split; [assumption|]. split; [assumption|]. exact (Co t1 _ J1).
Qed.
(* If every compare_exchange on a cell adds 1, the successful ones can be numbered 0, 1, 2, ... such that each has found the initial value plus its
   number: no two have the same number, and those of one thread are numbered in program order. *)
Theorem C45_tickets T G a n N : t_ie T = None -> t_wf T -> execution T G -> cells_client G -> (forall t, (N <= t)%nat -> g_thr G t = []) ->
  (forall x, 0 <= g_init G x < 256) -> let P := fun t => on_cell a n (calls (g_thr G t)) in
  (forall t cr, In cr (P t) -> by_one n cr) -> exists k : nat -> nat -> Z,
    (forall t i cr x y, nth_error (P t) i = Some cr -> wins cr = Some (x, y) -> 0 <= k t i < total won P N /\ x = (rd (t_e T) (g_init G) a n + k t i) mod 2 ^ (8 * n)) /\
    (forall t i cr t' i' cr', nth_error (P t) i = Some cr -> nth_error (P t') i' = Some cr' -> wins cr <> None -> wins cr' <> None -> k t i = k t' i' -> t = t' /\ i = i') /\
    (forall t i cr i' cr', nth_error (P t) i = Some cr -> nth_error (P t) i' = Some cr' -> wins cr <> None -> wins cr' <> None -> (i < i')%nat -> k t i < k t i').
Proof.
  intros Ie W X C HN Wm P B. destruct (C44_interleaving T G a n Ie W X C) as (mf & I & _).
  assert ((forall t i, nth_error (P t) i = None) \/ 0 < n) as [Em|Pn].
  { destruct (Z.ltb_spec 0 n) as [Pn|Pn]; [now right|left]. intros t i. destruct (nth_error (P t) i) as [[c r]|] eqn:A; [|reflexivity]. exfalso.
    destruct (on_in _ _ _ _ _ _ (nth_error_In _ _ A)) as [E (q & its & Ca)]. pose proof (cc_size _ C _ _ _ _ _ Ca) as S. rewrite E in S. cbn in S. unfold an_integer in S. lia. }
  - exists (fun _ _ => 0). repeat split; intros; match goal with A : nth_error (P ?t) ?i = Some _ |- _ => rewrite (Em t i) in A; discriminate A end.
  - apply (il_tickets T a n N P _ mf Pn I); [exact (on_none G a n N HN)| |apply rd_range; [exact Wm|lia]].
    intros t c r J. destruct (on_good T G a n X t c r J). split; [assumption|]. split; [assumption|]. exact (B t _ J).
Qed.
(* Hence no ticket is drawn twice, as long as not more of them are drawn than the cell has values. *)
Theorem C45_no_ticket_twice T G a n N : t_ie T = None -> t_wf T -> execution T G -> cells_client G -> (forall t, (N <= t)%nat -> g_thr G t = []) ->
  (forall x, 0 <= g_init G x < 256) -> let P := fun t => on_cell a n (calls (g_thr G t)) in
  (forall t cr, In cr (P t) -> by_one n cr) -> total won P N <= 2 ^ (8 * n) ->
  forall t i cr x y t' i' cr' y', nth_error (P t) i = Some cr -> nth_error (P t') i' = Some cr' -> wins cr = Some (x, y) -> wins cr' = Some (x, y') -> t = t' /\ i = i'.
Proof.
  intros Ie W X C HN Wm P B Le t i cr x y t' i' cr' y' A A' Q Q'. destruct (C45_tickets T G a n N Ie W X C HN Wm B) as (k & K1 & K2 & _).
  destruct (K1 _ _ _ _ _ A Q) as [R E], (K1 _ _ _ _ _ A' Q') as [R' E']. apply (K2 _ _ _ _ _ _ A A'); [congruence|congruence|].
  fold P in R, R'. assert (0 < 2 ^ (8 * n)) as PM by lia. rewrite E in E'.
  assert ((k t i - k t' i') mod 2 ^ (8 * n) = 0) as Z0.
  { replace (k t i - k t' i') with ((rd (t_e T) (g_init G) a n + k t i) - (rd (t_e T) (g_init G) a n + k t' i')) by lia. rewrite Zminus_mod, E', Z.sub_diag. apply Z.mod_0_l. lia. }
  apply Z.mod_divide in Z0; [|lia]. destruct Z0 as [d Z0]. assert (d = 0) by nia. lia.
Qed.
