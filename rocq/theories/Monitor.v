(* L3: a finite-state monitor over items whose flags imply the facts of MemOrder.v. Proof machinery, no specifications. *)
From Verif Require Export MemOrder.

Inductive aitem := AE (w : bool) (o : acc) (x : bool) | AF (f : fence) | AFull | ACtl (b : bool).
Definition abs (i : item) : aitem :=
  match i with IE v => AE (e_w v) (e_o v) (e_x v) | IF f => AF f | IFull => AFull | ICtl b => ACtl b end.

(* flags of one read: tail, head, rcsc head, full fence before, full fence after, branch depends on it *)
Record rfl := mkrfl { r_t : bool; r_h : bool; r_a : bool; r_f : bool; r_g : bool; r_c : bool }.
Record mq := mkq {
  q_rs : bool; q_ws : bool;                        (* a read / a write was seen *)
  q_hr : bool; q_hw : bool; q_as : bool; q_af : bool; (* fence heading reads, writes; acquire read seen; full fence seen *)
  q_c : rfl; q_e : rfl;                            (* the last read; the read before the last write *)
  q_sm : bool;                                     (* they are the same *)
  q_wt : bool; q_wh : bool; q_wl : bool; q_wf : bool; q_wg : bool; q_wp : bool  (* the last write (q_wh: all writes) *)
}.
Definition rfl0 := mkrfl false false false false false false.
Definition mq0 := mkq false false false false false false rfl0 rfl0 false false true false false false false.

Section M.
Context (M : mm).
Definition rfence (t g y : bool) (r : rfl) : rfl :=
  mkrfl (r_t r || t || (y && r_c r)) (r_h r) (r_a r) (r_f r) (r_g r || g) (r_c r).
Definition gfence (rr rw wr_ ww full y : bool) (q : mq) : mq :=
  mkq (q_rs q) (q_ws q) (q_hr q || (rr && wr_)) (q_hw q || (rw && ww)) (q_as q) (q_af q || full)
      (rfence (rr && rw) full y (q_c q)) (rfence (rr && rw) full y (q_e q)) (q_sm q)
      (q_wt q || (wr_ && ww)) (q_wh q) (q_wl q) (q_wf q) (q_wg q || full) (q_wp q).
Definition step (q : mq) (i : aitem) : mq :=
  match i with
  | AE false o x =>
      let a := q_as q || (m_rcsc M && a_aq o && negb (a_pc o)) in
      mkq true (q_ws q) (q_hr q) (q_hw q) a (q_af q)
        (mkrfl (a_aq o || (m_base M false false && m_base M false true))
               (a_rl o || q_hr q || (m_base M false false && m_base M true false)) a (q_af q) false false)
        (q_e q) false (q_wt q) (q_wh q) (q_wl q) (q_wf q) (q_wg q) (q_wp q)
  | AE true o x =>
      mkq (q_rs q) true (q_hr q) (q_hw q) (q_as q) (q_af q) (q_c q) (q_c q) true
        (a_aq o || (m_base M true false && m_base M true true))
        (q_wh q && (a_rl o || q_hw q || (m_base M false true && m_base M true true)))
        (a_rl o) (q_af q) false ((x || m_base M false true) && q_rs q)
  | AF f => gfence (m_ford M f false false) (m_ford M f false true) (m_ford M f true false) (m_ford M f true true) (m_full M f) (m_isync M f) q
  | AFull => gfence true true true true true false q
  | ACtl b =>
      let c r := mkrfl (r_t r) (r_h r) (r_a r) (r_f r) (r_g r) (r_c r || b) in
      mkq (q_rs q) (q_ws q) (q_hr q) (q_hw q) (q_as q) (q_af q) (c (q_c q)) (if q_sm q then c (q_e q) else q_e q) (q_sm q)
        (q_wt q) (q_wh q) (q_wl q) (q_wf q) (q_wg q) (q_wp q)
  end.
Definition mon (l : list aitem) : mq := fold_left step l mq0.
(* flags of the operation's read *)
Definition q_r (q : mq) : rfl := if q_ws q then q_e q else q_c q.

Definition facts (its : list item) (i : nat) (r : rfl) : Prop :=
  (r_t r = true -> tailed M its i) /\ (r_h r = true -> headed M its i) /\ (r_a r = true -> acqd M its i) /\
  (r_f r = true -> ffb M its i) /\ (r_g r = true -> ffa M its i) /\ (r_c r = true -> ctl_later its i).
Record Inv (its : list item) (q : mq) : Prop := {
  i_rs : q_rs q = false -> forall k, ~ is_read its k;
  i_rt : q_rs q = true -> exists i, last_read its (length its) i;
  i_ws : q_ws q = false -> forall k, ~ is_write its k;
  i_wt : q_ws q = true -> exists k, op_write its k;
  i_hr : q_hr q = true -> exists k, fence_at M its k false false /\ fence_at M its k true false;
  i_hw : q_hw q = true -> exists k, fence_at M its k false true /\ fence_at M its k true true;
  i_as : q_as q = true -> m_rcsc M = true /\ exists k v, at_ its k v /\ e_w v = false /\ a_aq (e_o v) = true /\ a_pc (e_o v) = false;
  i_af : q_af q = true -> exists k, full_at M its k;
  i_c : forall i, last_read its (length its) i -> facts its i (q_c q);
  i_e : forall k i, op_write its k -> last_read its k i -> facts its i (q_e q) /\ (q_sm q = true -> last_read its (length its) i);
  i_w : forall k, op_write its k -> (q_wt q = true -> tailed M its k) /\ (q_wl q = true -> rel_write its k) /\ (q_wf q = true -> ffb M its k) /\
                    (q_wg q = true -> ffa M its k) /\ (q_wp q = true -> exists i, linked M its i k);
  i_wh : q_wh q = true -> forall k, is_write its k -> headed M its k
}.

(* ---- appending one item ---- *)
Lemma nth_snoc {A} (l : list A) x i y : nth_error l i = Some y -> nth_error (l ++ [x]) i = Some y.
Proof. intros H. rewrite nth_error_app1; auto. apply nth_error_Some. congruence. Qed.
Lemma nth_snoc_inv {A} (l : list A) x i y : nth_error (l ++ [x]) i = Some y -> nth_error l i = Some y \/ (i = length l /\ x = y).
Proof.
  intros H. destruct (Nat.lt_ge_cases i (length l)) as [C|C]; [rewrite nth_error_app1 in H; auto|].
  rewrite nth_error_app2 in H by auto. destruct (i - length l)%nat eqn:E; cbn in H; [right; split; [lia|congruence]|destruct n; discriminate].
Qed.
Lemma nth_last {A} (l : list A) x : nth_error (l ++ [x]) (length l) = Some x.
Proof. rewrite nth_error_app2, Nat.sub_diag by lia. reflexivity. Qed.
Lemma len_snoc {A} (l : list A) x : length (l ++ [x]) = S (length l).
Proof. rewrite app_length. cbn. lia. Qed.
Lemma fence_mono its x k a b : fence_at M its k a b -> fence_at M (its ++ [x]) k a b.
Proof. intros [(f & H & F)|H]; [left; exists f; split; auto; now apply nth_snoc|right; now apply nth_snoc]. Qed.
Lemma full_mono its x k : full_at M its k -> full_at M (its ++ [x]) k.
Proof. intros [(f & H & F)|H]; [left; exists f; split; auto; now apply nth_snoc|right; now apply nth_snoc]. Qed.
Lemma fence_ltl its k a b : fence_at M its k a b -> (k < length its)%nat.
Proof. intros F. apply nth_error_Some. destruct F as [(f & -> & _)| ->]; discriminate. Qed.
Lemma full_ltl its k : full_at M its k -> (k < length its)%nat.
Proof. intros F. apply nth_error_Some. destruct F as [(f & -> & _)| ->]; discriminate. Qed.
Lemma is_read_lt its k : is_read its k -> (k < length its)%nat.
Proof. intros (v & A & _). eapply at_lt; eauto. Qed.
Lemma is_write_lt its k : is_write its k -> (k < length its)%nat.
Proof. intros (v & A & _). eapply at_lt; eauto. Qed.
Lemma is_read_snoc its x k : (k < length its)%nat -> (is_read (its ++ [x]) k <-> is_read its k).
Proof. intros H. unfold is_read, at_. rewrite nth_error_app1 by auto. tauto. Qed.
Lemma is_write_snoc its x k : (k < length its)%nat -> (is_write (its ++ [x]) k <-> is_write its k).
Proof. intros H. unfold is_write, at_. rewrite nth_error_app1 by auto. tauto. Qed.
Lemma last_read_snoc its x k i : (k <= length its)%nat -> (last_read (its ++ [x]) k i <-> last_read its k i).
Proof.
  intros H. unfold last_read. split; intros (L & R & N).
  - split; [exact L|]. split; [apply (is_read_snoc its x); [lia|exact R]|]. intros m Hm R'. apply (N m Hm). apply is_read_snoc; [lia|exact R'].
  - split; [exact L|]. split; [apply is_read_snoc; [lia|exact R]|]. intros m Hm R'. apply (N m Hm). apply (is_read_snoc its x); [lia|exact R'].
Qed.
Lemma ctl_mono its x i k : ctl_at its i k -> ctl_at (its ++ [x]) i k.
Proof.
  intros [H L]. split; [now apply nth_snoc|]. apply last_read_snoc; auto. apply Nat.lt_le_incl, nth_error_Some. congruence.
Qed.
Lemma tailed_mono its x i : tailed M its i -> tailed M (its ++ [x]) i.
Proof.
  intros (v & A & H). exists v. split; [now apply nth_snoc|]. destruct H as [H|[H|[(k & ? & ? & ?)|(k & m & f & ? & C & F & Y)]]]; auto.
  - right. right. left. exists k. auto using fence_mono.
  - right. right. right. exists k, m, f. split; auto. split; [now apply ctl_mono|]. split; auto. now apply nth_snoc.
Qed.
Lemma headed_mono its x i : headed M its i -> headed M (its ++ [x]) i.
Proof.
  intros (v & A & H). exists v. split; [now apply nth_snoc|]. destruct H as [H|[H|(k & ? & ? & ?)]]; auto.
  right. right. exists k. auto using fence_mono.
Qed.
Lemma acqd_mono its x i : acqd M its i -> acqd M (its ++ [x]) i.
Proof. intros (? & k & v & ? & A & H). split; auto. exists k, v. split; auto. split; auto. now apply nth_snoc. Qed.
Lemma ffb_mono its x i : ffb M its i -> ffb M (its ++ [x]) i.
Proof. intros (k & ? & F). exists k. auto using full_mono. Qed.
Lemma ffa_mono its x i : ffa M its i -> ffa M (its ++ [x]) i.
Proof. intros (k & ? & F). exists k. auto using full_mono. Qed.
Lemma ctll_mono its x i : ctl_later its i -> ctl_later (its ++ [x]) i.
Proof. intros (k & F). exists k. auto using ctl_mono. Qed.
Lemma facts_mono its x i r : facts its i r -> facts (its ++ [x]) i r.
Proof.
  intros (A & B & C & D & F & G).
  split; [intros H; apply tailed_mono; auto|]. split; [intros H; apply headed_mono; auto|]. split; [intros H; apply acqd_mono; auto|].
  split; [intros H; apply ffb_mono; auto|]. split; [intros H; apply ffa_mono; auto|]. intros H; apply ctll_mono; auto.
Qed.
Lemma rel_mono its x i : rel_write its i -> rel_write (its ++ [x]) i.
Proof. intros (v & A & H). exists v. split; auto. now apply nth_snoc. Qed.
Lemma rmw_mono its x i k : rmw its i k -> rmw (its ++ [x]) i k.
Proof. intros (v & A & W & X & L). exists v. split; [now apply nth_snoc|]. repeat split; auto; try apply L. apply is_read_snoc; [|apply L]. apply is_read_lt, L.
  intros m Hm R. destruct L as (_ & _ & N). apply (N m Hm). apply (is_read_snoc its x); [|exact R]. apply at_lt in A. lia. Qed.

Lemma linked_mono its x i k : linked M its i k -> linked M (its ++ [x]) i k.
Proof.
  intros [L H]. assert (k < length its)%nat as Hk by (apply is_write_lt, L). destruct L as [Wk L].
  split; [split; [apply is_write_snoc; auto|]; apply last_read_snoc; auto; lia|]. destruct H as [H|H]; auto. left. now apply rmw_mono.
Qed.

(* an item that is not an access *)
Definition no_access (x : item) : Prop := match x with IE _ => False | _ => True end.
Lemma last_read_skip its x i : (~ exists v, x = IE v /\ e_w v = false) -> last_read (its ++ [x]) (length (its ++ [x])) i -> last_read its (length its) i.
Proof.
  intros NA (L & R & N). rewrite len_snoc in L.
  assert (i < length its)%nat as Hi.
  { destruct (Nat.eq_dec i (length its)) as [->|]; [|lia]. destruct R as (v & A & W). unfold at_ in A. rewrite nth_last in A. injection A as ->. exfalso. eauto. }
  split; [lia|]. split; [apply (is_read_snoc its x); [lia|exact R]|]. intros m Hm R'. apply (N m); [rewrite len_snoc; lia|]. apply is_read_snoc; [lia|exact R'].
Qed.
Lemma op_write_skip its x k : (~ exists v, x = IE v /\ e_w v = true) -> op_write (its ++ [x]) k -> op_write its k.
Proof.
  intros NA (L & R & N). rewrite len_snoc in L.
  assert (k < length its)%nat as Hi.
  { destruct (Nat.eq_dec k (length its)) as [->|]; [|lia]. destruct R as (v & A & W). unfold at_ in A. rewrite nth_last in A. injection A as ->. exfalso. eauto. }
  split; [lia|]. split; [apply (is_write_snoc its x); [lia|exact R]|]. intros m Hm R'. apply (N m); [rewrite len_snoc; lia|]. apply is_write_snoc; [lia|exact R'].
Qed.
Lemma last_read_keep its x i : (~ exists v, x = IE v /\ e_w v = false) -> last_read its (length its) i -> last_read (its ++ [x]) (length (its ++ [x])) i.
Proof.
  intros NA (L & R & N). rewrite len_snoc. split; [lia|]. split; [apply is_read_snoc; [lia|exact R]|]. intros m Hm R'.
  destruct (Nat.eq_dec m (length its)) as [->|]; [|apply (N m); [lia|]; apply (is_read_snoc its x); [lia|exact R']].
  destruct R' as (v & A & W). unfold at_ in A. rewrite nth_last in A. injection A as ->. eauto.
Qed.
Lemma op_write_keep its x i : (~ exists v, x = IE v /\ e_w v = true) -> op_write its i -> op_write (its ++ [x]) i.
Proof.
  intros NA (L & R & N). unfold op_write. rewrite len_snoc. split; [lia|]. split; [apply is_write_snoc; [lia|exact R]|]. intros m Hm R'.
  destruct (Nat.eq_dec m (length its)) as [->|]; [|apply (N m); [lia|]; apply (is_write_snoc its x); [lia|exact R']].
  destruct R' as (v & A & W). unfold at_ in A. rewrite nth_last in A. injection A as ->. eauto.
Qed.
Lemma op_write_lt its k : op_write its k -> (k < length its)%nat.
Proof. now intros (L & _). Qed.

Lemma inv0 : Inv [] mq0.
Proof.
  assert (forall k, ~ is_read [] k) as NR by (intros k (v & A & _); unfold at_ in A; destruct k; discriminate A).
  assert (forall k, ~ is_write [] k) as NW by (intros k (v & A & _); unfold at_ in A; destruct k; discriminate A).
  constructor; cbn [mq0 q_rs q_ws q_hr q_hw q_as q_af q_c q_e q_sm q_wt q_wh q_wl q_wf q_wg q_wp]; auto; try (intros E; discriminate E).
  - intros i (_ & R & _). now apply NR in R.
  - intros k i (_ & R & _). now apply NW in R.
  - intros k (_ & R & _). now apply NW in R.
  - intros _ k R. now apply NW in R.
Qed.

(* ---- a fence ---- *)
Definition fence_like (x : item) (rr rw wr_ ww full y : bool) : Prop :=
  no_access x /\
  (forall its, let k := length its in let L := its ++ [x] in
     (rr = true -> fence_at M L k false false) /\ (rw = true -> fence_at M L k false true) /\ (wr_ = true -> fence_at M L k true false) /\
     (ww = true -> fence_at M L k true true) /\ (full = true -> full_at M L k)) /\
  (y = true -> exists f, x = IF f /\ m_isync M f = true).
Lemma na_r x : no_access x -> ~ exists v, x = IE v /\ e_w v = false.
Proof. intros N (v & -> & _). exact N. Qed.
Lemma na_w x : no_access x -> ~ exists v, x = IE v /\ e_w v = true.
Proof. intros N (v & -> & _). exact N. Qed.
Lemma facts_fence its x rr rw wr_ ww full y i r : fence_like x rr rw wr_ ww full y -> is_read its i -> facts its i r ->
  facts (its ++ [x]) i (rfence (rr && rw) full y r).
Proof.
  intros (NA & F & Y) (v & Av & Wv) (T & H & A & B & C & D). pose proof (at_lt _ _ _ Av) as Hi. specialize (F its). cbv zeta in F.
  destruct F as (Frr & Frw & _ & _ & Ff).
  unfold facts, rfence; cbn [r_t r_h r_a r_f r_g r_c].
  split; [|split; [|split; [|split; [|split]]]].
  - intros E. apply orb_true_iff in E. destruct E as [E|E]; [apply orb_true_iff in E; destruct E as [E|E]|].
    + apply tailed_mono; auto.
    + apply andb_true_iff in E. destruct E as [E1 E2]. exists v. split; [now apply nth_snoc|]. right. right. left.
      exists (length its). rewrite Wv. auto.
    + apply andb_true_iff in E. destruct E as [E1 E2]. destruct (Y E1) as (f & -> & Ys). destruct (D E2) as (k & Ck).
      exists v. split; [now apply nth_snoc|]. right. right. right. exists k, (length its), f.
      split; [apply nth_error_Some; destruct Ck as [-> _]; discriminate|]. split; [now apply ctl_mono|]. split; auto. apply nth_last.
  - intros E. apply headed_mono; auto.
  - intros E. apply acqd_mono; auto.
  - intros E. apply ffb_mono; auto.
  - intros E. apply orb_true_iff in E. destruct E as [E|E]; [apply ffa_mono; auto|]. exists (length its). auto.
  - intros E. apply ctll_mono; auto.
Qed.
Lemma no_read_snoc its x : no_access x -> (forall k, ~ is_read its k) -> forall k, ~ is_read (its ++ [x]) k.
Proof.
  intros NA N k (v & A & W). apply nth_snoc_inv in A. destruct A as [A|[_ ->]]; [apply (N k); exists v; auto|exact NA].
Qed.
Lemma no_write_snoc its x : no_access x -> (forall k, ~ is_write its k) -> forall k, ~ is_write (its ++ [x]) k.
Proof.
  intros NA N k (v & A & W). apply nth_snoc_inv in A. destruct A as [A|[_ ->]]; [apply (N k); exists v; auto|exact NA].
Qed.
Lemma write_snoc_na its x k : no_access x -> is_write (its ++ [x]) k -> is_write its k.
Proof.
  intros NA (v & A & W). apply nth_snoc_inv in A. destruct A as [A|[_ ->]]; [exists v; auto|contradiction NA].
Qed.
Lemma op_last_na its x k i : no_access x -> op_write (its ++ [x]) k -> last_read (its ++ [x]) k i -> op_write its k /\ last_read its k i.
Proof.
  intros NA W L. assert (op_write its k) as W' by (eapply op_write_skip; eauto using na_w). split; auto.
  apply (last_read_snoc its x); [apply Nat.lt_le_incl, op_write_lt, W'|exact L].
Qed.
Lemma last_is_read its k i : last_read its k i -> is_read its i.
Proof. now intros (_ & R & _). Qed.
Lemma inv_fence its x rr rw wr_ ww full y q : fence_like x rr rw wr_ ww full y -> Inv its q -> Inv (its ++ [x]) (gfence rr rw wr_ ww full y q).
Proof.
  intros FL I. pose proof FL as (NA & F & Y). specialize (F its). cbv zeta in F. destruct F as (Frr & Frw & Fwr & Fww & Ff).
  constructor; unfold gfence; cbn [q_rs q_ws q_hr q_hw q_as q_af q_c q_e q_sm q_wt q_wh q_wl q_wf q_wg q_wp].
  - intros E. apply no_read_snoc; auto. now apply (i_rs _ _ I).
  - intros E. destruct (i_rt _ _ I E) as (i & L). exists i. apply last_read_keep; auto using na_r.
  - intros E. apply no_write_snoc; auto. now apply (i_ws _ _ I).
  - intros E. destruct (i_wt _ _ I E) as (k & W). exists k. apply op_write_keep; auto using na_w.
  - intros E. apply orb_true_iff in E. destruct E as [E|E].
    + destruct (i_hr _ _ I E) as (k & A & B). exists k. auto using fence_mono.
    + apply andb_true_iff in E. destruct E. exists (length its). auto.
  - intros E. apply orb_true_iff in E. destruct E as [E|E].
    + destruct (i_hw _ _ I E) as (k & A & B). exists k. auto using fence_mono.
    + apply andb_true_iff in E. destruct E. exists (length its). auto.
  - intros E. destruct (i_as _ _ I E) as (A & k & v & B & C). split; auto. exists k, v. split; auto. now apply nth_snoc.
  - intros E. apply orb_true_iff in E. destruct E as [E|E].
    + destruct (i_af _ _ I E) as (k & A). exists k. auto using full_mono.
    + exists (length its). auto.
  - intros i L. apply last_read_skip in L; auto using na_r. eapply facts_fence; eauto using last_is_read. now apply (i_c _ _ I).
  - intros k i W L. destruct (op_last_na _ _ _ _ NA W L) as [W' L']. destruct (i_e _ _ I _ _ W' L') as [Fa Sm].
    split; [eapply facts_fence; eauto using last_is_read|]. intros E. apply last_read_keep; auto using na_r.
  - intros k W. assert (op_write its k) as W' by (eapply op_write_skip; eauto using na_w). destruct (i_w _ _ I _ W') as (T & Rl & B & G & P).
    pose proof (op_write_lt _ _ W') as Hk. destruct W' as (_ & (v & Av & Wv) & _).
    split; [|split; [|split; [|split]]]; intros E.
    + apply orb_true_iff in E. destruct E as [E|E]; [apply tailed_mono; auto|]. apply andb_true_iff in E. destruct E.
      exists v. split; [now apply nth_snoc|]. right. right. left. exists (length its). rewrite Wv. auto.
    + apply rel_mono; auto.
    + apply ffb_mono; auto.
    + apply orb_true_iff in E. destruct E as [E|E]; [apply ffa_mono; auto|]. exists (length its). auto.
    + destruct (P E) as (i & Ri). exists i. now apply linked_mono.
  - intros E k W. apply headed_mono. apply (i_wh _ _ I); auto. now apply write_snoc_na in W.
Qed.
(* ---- a branch ---- *)
Lemma inv_ctl its b q : Inv its q -> Inv (its ++ [ICtl b]) (step q (ACtl b)).
Proof.
  intros I. assert (no_access (ICtl b)) as NA by exact Logic.I.
  assert (forall i r, last_read its (length its) i -> facts its i r -> facts (its ++ [ICtl b]) i (mkrfl (r_t r) (r_h r) (r_a r) (r_f r) (r_g r) (r_c r || b))) as FC.
  { intros i r L Fa. pose proof (facts_mono _ (ICtl b) _ _ Fa) as (A & B & C & D & E & G). unfold facts; cbn [r_t r_h r_a r_f r_g r_c].
    split; [exact A|]. split; [exact B|]. split; [exact C|]. split; [exact D|]. split; [exact E|]. intros H. apply orb_true_iff in H. destruct H as [H| ->]; auto.
    exists (length its). split; [apply nth_last|]. apply last_read_snoc; auto. }
  constructor; cbn [step q_rs q_ws q_hr q_hw q_as q_af q_c q_e q_sm q_wt q_wh q_wl q_wf q_wg q_wp].
  - intros E. apply no_read_snoc; auto. now apply (i_rs _ _ I).
  - intros E. destruct (i_rt _ _ I E) as (i & L). exists i. apply last_read_keep; auto using na_r.
  - intros E. apply no_write_snoc; auto. now apply (i_ws _ _ I).
  - intros E. destruct (i_wt _ _ I E) as (k & W). exists k. apply op_write_keep; auto using na_w.
  - intros E. destruct (i_hr _ _ I E) as (k & A & B). exists k. auto using fence_mono.
  - intros E. destruct (i_hw _ _ I E) as (k & A & B). exists k. auto using fence_mono.
  - intros E. destruct (i_as _ _ I E) as (A & k & v & B & C). split; auto. exists k, v. split; auto. now apply nth_snoc.
  - intros E. destruct (i_af _ _ I E) as (k & A). exists k. auto using full_mono.
  - intros i L. apply last_read_skip in L; auto using na_r. apply FC; auto. now apply (i_c _ _ I).
  - intros k i W L. destruct (op_last_na _ _ _ _ NA W L) as [W' L']. destruct (i_e _ _ I _ _ W' L') as [Fa Sm].
    split; [|intros E; apply last_read_keep; auto using na_r]. destruct (q_sm q) eqn:E; [apply FC; auto|now apply facts_mono].
  - intros k W. assert (op_write its k) as W' by (eapply op_write_skip; eauto using na_w). destruct (i_w _ _ I _ W') as (T & Rl & B & G & P).
    split; [|split; [|split; [|split]]]; intros E; auto using tailed_mono, rel_mono, ffb_mono, ffa_mono.
    destruct (P E) as (i & Ri). exists i. now apply linked_mono.
  - intros E k W. apply headed_mono. apply (i_wh _ _ I); auto. now apply write_snoc_na in W.
Qed.
(* ---- a read ---- *)
Lemma read_snoc_new its v : e_w v = false -> is_read (its ++ [IE v]) (length its).
Proof. intros W. exists v. split; auto. apply nth_last. Qed.
Lemma write_snoc_new its v : e_w v = true -> is_write (its ++ [IE v]) (length its).
Proof. intros W. exists v. split; auto. apply nth_last. Qed.
Lemma last_read_new its v i : e_w v = false -> last_read (its ++ [IE v]) (length (its ++ [IE v])) i -> i = length its.
Proof.
  intros W (L & R & N). rewrite len_snoc in *. destruct (Nat.eq_dec i (length its)); auto. exfalso. apply (N (length its)); [lia|]. now apply read_snoc_new.
Qed.
Lemma op_write_new its v k : e_w v = true -> op_write (its ++ [IE v]) k -> k = length its.
Proof.
  intros W (L & R & N). rewrite len_snoc in *. destruct (Nat.eq_dec k (length its)); auto. exfalso. apply (N (length its)); [lia|]. now apply write_snoc_new.
Qed.
Lemma fence_ltl' its x k a b : fence_at M its k a b -> fence_at M (its ++ [x]) k a b /\ (k < length its)%nat.
Proof. intros H. split; [now apply fence_mono|now apply fence_ltl in H]. Qed.
Lemma inv_read its v q : e_w v = false -> Inv its q -> Inv (its ++ [IE v]) (step q (AE false (e_o v) (e_x v))).
Proof.
  intros Wv I. assert (~ exists u, IE v = IE u /\ e_w u = true) as NW by (intros (u & Eu & Hu); injection Eu as <-; congruence).
  pose proof (nth_last its (IE v)) as Av. fold (at_ (its ++ [IE v]) (length its) v) in Av.
  assert (q_as q || (m_rcsc M && a_aq (e_o v) && negb (a_pc (e_o v))) = true ->
      m_rcsc M = true /\ exists k u, (k <= length its)%nat /\ at_ (its ++ [IE v]) k u /\ e_w u = false /\ a_aq (e_o u) = true /\ a_pc (e_o u) = false) as AS.
  { intros E. apply orb_true_iff in E. destruct E as [E|E].
    - destruct (i_as _ _ I E) as (A & k & u & B & C). split; auto. exists k, u. split; [apply at_lt in B; lia|]. split; auto. now apply nth_snoc.
    - apply andb_true_iff in E. destruct E as [E E3]. apply andb_true_iff in E. destruct E as [E1 E2]. split; auto. exists (length its), v.
      split; [lia|]. split; auto. split; auto. split; auto. now apply negb_true_iff. }
  constructor; cbn [step q_rs q_ws q_hr q_hw q_as q_af q_c q_e q_sm q_wt q_wh q_wl q_wf q_wg q_wp].
  - intros E; discriminate E.
  - intros _. exists (length its). split; [rewrite len_snoc; lia|]. split; [now apply read_snoc_new|]. intros m Hm. rewrite len_snoc in Hm. lia.
  - intros E k (u & A & W). apply nth_snoc_inv in A. destruct A as [A|[_ A]]; [apply (i_ws _ _ I E k); exists u; auto|]. apply NW. exists u. auto.
  - intros E. destruct (i_wt _ _ I E) as (k & W). exists k. apply op_write_keep; auto.
  - intros E. destruct (i_hr _ _ I E) as (k & A & B). exists k. auto using fence_mono.
  - intros E. destruct (i_hw _ _ I E) as (k & A & B). exists k. auto using fence_mono.
  - intros E. destruct (AS E) as (A & k & u & _ & B). split; auto. exists k, u. auto.
  - intros E. destruct (i_af _ _ I E) as (k & A). exists k. auto using full_mono.
  - intros i L. apply last_read_new in L; auto. subst i. unfold facts; cbn [r_t r_h r_a r_f r_g r_c].
    split; [|split; [|split; [|split; [|split]]]]; intros E.
    + exists v. split; auto. rewrite Wv. apply orb_true_iff in E. tauto.
    + exists v. split; auto. rewrite Wv. apply orb_true_iff in E. destruct E as [E|E]; [|tauto]. apply orb_true_iff in E. destruct E as [E|E]; [tauto|].
      right. right. destruct (i_hr _ _ I E) as (k & A & B). exists k. pose proof (fence_ltl _ _ _ _ A). auto using fence_mono.
    + destruct (AS E) as (A & k & u & Hk & B). split; auto. exists k, u. auto.
    + destruct (i_af _ _ I E) as (k & A). exists k. pose proof (full_ltl _ _ A). auto using full_mono.
    + discriminate E.
    + discriminate E.
  - intros k i W L. apply op_write_skip in W; auto. apply (last_read_snoc its (IE v)) in L; [|apply Nat.lt_le_incl, op_write_lt, W].
    destruct (i_e _ _ I _ _ W L) as [Fa _]. split; [now apply facts_mono|]. intros E; discriminate E.
  - intros k W. apply op_write_skip in W; auto. destruct (i_w _ _ I _ W) as (T & Rl & B & G & P).
    split; [|split; [|split; [|split]]]; intros E; auto using tailed_mono, rel_mono, ffb_mono, ffa_mono.
    destruct (P E) as (i & Ri). exists i. now apply linked_mono.
  - intros E k (u & A & W). apply nth_snoc_inv in A. destruct A as [A|[_ A]]; [|exfalso; apply NW; exists u; auto].
    apply headed_mono. apply (i_wh _ _ I E). exists u. auto.
Qed.
(* ---- a write ---- *)
Lemma inv_write its v q : e_w v = true -> Inv its q -> Inv (its ++ [IE v]) (step q (AE true (e_o v) (e_x v))).
Proof.
  intros Wv I. assert (~ exists u, IE v = IE u /\ e_w u = false) as NR by (intros (u & Eu & Hu); injection Eu as <-; congruence).
  pose proof (nth_last its (IE v)) as Av. fold (at_ (its ++ [IE v]) (length its) v) in Av.
  assert (forall i, last_read (its ++ [IE v]) (length its) i -> last_read its (length its) i) as LR by (intros i L; apply (last_read_snoc its (IE v)); [lia|exact L]).
  constructor; cbn [step q_rs q_ws q_hr q_hw q_as q_af q_c q_e q_sm q_wt q_wh q_wl q_wf q_wg q_wp].
  - intros E k (u & A & W). apply nth_snoc_inv in A. destruct A as [A|[_ A]]; [apply (i_rs _ _ I E k); exists u; auto|]. apply NR. exists u. auto.
  - intros E. destruct (i_rt _ _ I E) as (i & L). exists i. apply last_read_keep; auto.
  - intros E; discriminate E.
  - intros _. exists (length its). split; [rewrite len_snoc; lia|]. split; [now apply write_snoc_new|]. intros m Hm. rewrite len_snoc in Hm. lia.
  - intros E. destruct (i_hr _ _ I E) as (k & A & B). exists k. auto using fence_mono.
  - intros E. destruct (i_hw _ _ I E) as (k & A & B). exists k. auto using fence_mono.
  - intros E. destruct (i_as _ _ I E) as (A & k & u & B & C). split; auto. exists k, u. split; auto. now apply nth_snoc.
  - intros E. destruct (i_af _ _ I E) as (k & A). exists k. auto using full_mono.
  - intros i L. apply last_read_skip in L; auto. apply facts_mono. now apply (i_c _ _ I).
  - intros k i W L. apply op_write_new in W; auto. subst k. apply LR in L. split; [apply facts_mono; now apply (i_c _ _ I)|]. intros _. now apply last_read_keep.
  - intros k W. apply op_write_new in W; auto. subst k. split; [|split; [|split; [|split]]]; intros E.
    + exists v. split; auto. rewrite Wv. apply orb_true_iff in E. tauto.
    + exists v. auto.
    + destruct (i_af _ _ I E) as (k & A). exists k. pose proof (full_ltl _ _ A). auto using full_mono.
    + discriminate E.
    + apply andb_true_iff in E. destruct E as [Ex Er].
      destruct (i_rt _ _ I Er) as [i Li].
      assert (last_read (its ++ [IE v]) (length its) i) as Li' by (apply last_read_snoc; auto).
      exists i. split; [split; [now apply write_snoc_new|exact Li']|]. apply orb_true_iff in Ex. destruct Ex as [Ex|Ex]; [left|now right].
      exists v. auto.
  - intros E k (u & A & W). apply andb_true_iff in E. destruct E as [E1 E]. apply nth_snoc_inv in A. destruct A as [A|[-> A]].
    + apply headed_mono. apply (i_wh _ _ I E1). exists u. auto.
    + injection A as <-. exists v. split; auto. rewrite Wv. apply orb_true_iff in E. destruct E as [E|E]; [|tauto]. apply orb_true_iff in E. destruct E as [E|E]; [tauto|].
      right. right. destruct (i_hw _ _ I E) as (k & A & B). exists k. pose proof (fence_ltl _ _ _ _ A). auto using fence_mono.
Qed.
Lemma inv_step its x q : Inv its q -> Inv (its ++ [x]) (step q (abs x)).
Proof.
  intros I. destruct x as [v|f| |b]; cbn [abs].
  - destruct (e_w v) eqn:W; [now apply inv_write|now apply inv_read].
  - apply inv_fence; auto. split; [exact Logic.I|]. split; [|eauto]. intros l. cbv zeta. unfold fence_at, full_at. rewrite nth_last.
    repeat split; intros H; left; eauto.
  - apply inv_fence; auto. split; [exact Logic.I|]. split; [|intros H; discriminate H]. intros l. cbv zeta. unfold fence_at, full_at. rewrite nth_last.
    repeat split; intros H; right; reflexivity.
  - now apply inv_ctl.
Qed.
Lemma inv_mon its : Inv its (mon (map abs its)).
Proof.
  induction its as [|x its IH] using rev_ind; [exact inv0|]. unfold mon. rewrite map_app, fold_left_app. cbn [map fold_left]. now apply inv_step.
Qed.
End M.
