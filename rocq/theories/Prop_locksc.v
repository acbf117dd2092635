(* C42: a program that synchronizes by locks.  Locks made of acquiring and releasing calls (C38) are enough for the data they protect: the whole
   program, locks and data, behaves as under an interleaving in which taking and giving back happen at once. *)
From Verif Require Import SeqCst Prop_order Replay Prop_sc CallLink All_atomic Weak Prop_mp Prop_hb Merge Prop_drf Prop_drfsc Prop_lock.
From Coq Require Import Permutation Sorted Relations.Operators_Properties.

(* ---- specification ---- *)
(* a load, a swap that finds the lock taken, a compare_exchange that fails: it neither takes the lock nor gives it back *)
Definition idle (c : op) (r : rval) : bool :=
  match c, r with OLoad _ _ _, _ => true | OStore _ _ _ _, _ => false | OSwap _ _ _ _, RVal v => negb (v =? 0) | _, RCas _ ok => negb ok | _, _ => false end.
(* in the interleaving: a call that takes the lock finds it free and leaves it taken, one that gives it back leaves it free, an idle one does
   nothing (and may happen at any time: what it returns says nothing about the moment); other accesses find and leave what memory holds *)
Definition lock_step (e : endian) (a : act) (m m' : mem) : Prop :=
  match a with ACall c r => if idle c r then meq m' m else op_spec e c m m' r | AMem v => plain_step v m m' end.
(* [Lk a n]: the [n] bytes at [a] are a lock *)
Record lock_system (T : arch) (G : graph) (Lk : Z -> Z -> Prop) : Prop := {
  ls_calls : forall t q c r its, call_at G t q c r its -> Lk (fst (op_cell c)) (snd (op_cell c));
  ls_locks : forall a n, Lk a n -> lock_client T G a n;
  ls_apart : forall a n a' n', Lk a n -> Lk a' n' -> (a, n) = (a', n') \/ disjoint (a, n) (a', n')
}.

(* ---- one lock ---- *)
Section O.
Context (T : arch) (G : graph) (a n : Z) (Ie : t_ie T = None) (W : t_wf T) (X : execution T G) (K : lock_client T G a n).
Notation Sa := (ex_sane T G X).
Notation b0 := (lowb (t_e T) a n).
Notation tk := (takes T G a n).
Notation gv := (gives T G a n).
Notation Acc0 := (co_acc T G a n X K b0).
Definition opw (t q : nat) (w : eid) : Prop := (exists x, tk t q w x) \/ gv t q w.
Lemma opw_w t q w : opw t q w -> writes_b G w b0.
Proof. intros [(x & H)|H]; [exact (proj1 (takes_w T G a n X _ _ _ _ H))|exact (gives_w T G a n _ _ _ H)]. Qed.
Lemma opw_call t q w : opw t q w -> exists c r its, call_at G t q c r its /\ a_write G w t q its.
Proof.
  intros [(x & c & r & its & v & u & C & _ & _ & _ & _ & A & _)|(c & r & its & v & C & _ & A & _)]; exists c, r, its; auto.
Qed.
Lemma opw_inj t q t' q' w : opw t q w -> opw t' q' w -> t = t' /\ q = q'.
Proof. intros H H'. destruct (opw_call _ _ _ H) as (c & r & its & C & A), (opw_call _ _ _ H') as (c' & r' & its' & C' & A'). exact (a_write_pos G _ _ _ _ _ _ _ _ _ _ _ C C' A A'). Qed.
Lemma opw_uni t q w : opw t q w -> forall c r its y, call_at G t q c r its -> a_write G y t q its -> y = w.
Proof.
  intros [(x & c & r & its & v & u & C & Lc & Tk & _ & _ & A & _)|(c & r & its & v & C & _ & A & _ & _ & _ & _ & U)] c' r' its' y C' A'.
  - destruct (lock_takes T G a n Ie W X _ _ _ _ _ C Lc Tk) as (w0 & v0 & x0 & u0 & _ & _ & _ & _ & _ & _ & _ & _ & _ & _ & _ & U).
    unfold call_at in *. assert (its' = its) as -> by (rewrite C in C'; injection C'; auto). now rewrite (U y A'), (U w A).
  - unfold call_at in *. assert (its' = its) as -> by (rewrite C in C'; injection C'; auto). exact (U y A').
Qed.
Lemma opw_fun t q w w' : opw t q w -> opw t q w' -> w = w'.
Proof. intros H H'. destruct (opw_call _ _ _ H) as (c & r & its & C & A). exact (opw_uni _ _ _ H' _ _ _ _ C A). Qed.
Lemma give_sec t q w : gv t q w -> exists ql l x, sec T G a n t ql q l x w.
Proof.
  intros H. pose proof H as (c & r & its & v & C & U & A & _ & _ & _ & _ & Un). assert (op_cell c = (a, n)) as Ec by (destruct U as (o & -> & _); reflexivity).
  destruct (lk_calls _ _ _ _ K _ _ _ _ _ C Ec) as [Q|[(o & -> & _)|[_ (ql & Hd)]]].
  - exfalso. destruct U as (o & -> & _). destruct Q as [(o' & E & _)|(s & f & [E|E] & _)]; discriminate E.
  - destruct U as (o' & E & _). discriminate E.
  - destruct (sec_of T G a n Ie W X _ _ _ Hd) as (l & x & w' & S). exists ql, l, x. replace w with w'; [exact S|]. destruct S as (_ & _ & G'). exact (opw_fun _ _ _ _ (or_intror G') (or_intror H)).
Qed.
(* the lock can be taken again only after it has been given back *)
Lemma must_give l : Acc (g_co G b0) l -> forall t q x t' q' l' x', tk t q l x -> tk t' q' l' x' -> g_co G b0 l' l -> exists qu w, sec T G a n t' q' qu l' x' w.
Proof.
  induction 1 as [l _ IH]. intros t q x t' q' l' x' Tk Tk' C. pose proof (takes_w T G a n X _ _ _ _ Tk') as (Wl' & _).
  destruct (source T G a n Ie W X K _ _ _ _ Tk) as [(p & t3 & ql3 & qu3 & l3 & x3 & R & S3)|N]; [|exfalso; refine (no_between T G a n X _ _ _ _ l' Tk Wl' _ C); intros p Q; destruct (N p Q)].
  pose proof S3 as (_ & Tl3 & G3). pose proof (gives_w T G a n _ _ _ G3) as Wp. pose proof (takes_w T G a n X _ _ _ _ Tl3) as (Wl3 & _).
  assert (forall p', g_rf G b0 p' x -> p' = p) as Up by (intros p' R'; exact (rf_one _ Sa _ _ _ _ R' R)).
  assert (g_co G b0 p l) as Pl by (apply (rmw_fr T G X b0 x l (takes_rmw T G a n _ _ _ _ Tk)); try apply (takes_w T G a n X _ _ _ _ Tk); exact R).
  pose proof (sec_co T G a n X _ _ _ _ _ _ S3) as L3p. destruct (eid_dec l3 l') as [->|Ne].
  - destruct (takes_fun T G a n _ _ _ _ _ _ _ Tl3 Tk') as [-> ->]. exists qu3, p. destruct S3 as (H1 & _ & H3). split; [exact H1|]. split; [exact Tk'|exact H3].
  - destruct (co_total _ Sa b0 l3 l' Wl3 Wl' Ne) as [Q|Q].
    + exfalso. assert (g_co G b0 p l') as Pl'.
      { apply (co_or T G X); auto; [exact (vals T G a n _ _ _ _ _ _ _ Tk' G3)|]. intros Z. exact (exclusion T G a n Ie W X K l' (co_acc T G a n X K b0 l') _ _ _ _ _ _ _ _ _ S3 Tk' Q Z). }
      refine (no_between T G a n X _ _ _ _ l' Tk Wl' _ C). intros p' R'. now rewrite (Up p' R').
    + exact (IH l3 (co_trans _ Sa _ _ _ _ L3p Pl) _ _ _ _ _ _ _ Tl3 Tk' Q).
Qed.
(* of two changes of the lock the first comes first in synchronization order *)
Lemma opw_order t q w t' q' w' : opw t q w -> opw t' q' w' -> g_co G b0 w w' -> (t = t' /\ (q < q')%nat) \/ exists q1 q2, (q <= q1)%nat /\ reaches G (t, q1) (t', q2) /\ (q2 <= q')%nat.
Proof.
  intros [(x & Tk)|Gv] [(x' & Tk')|Gv'] C.
  - destruct (must_give w' (Acc0 w') _ _ _ _ _ _ _ Tk' Tk C) as (qu & g & S). right. exists qu, q'. destruct S as (H & S). split; [destruct H; lia|]. split; [|lia].
    exact (ordered T G a n Ie W X K w' (Acc0 w') _ _ _ _ _ _ _ _ _ (conj H S) Tk' C).
  - destruct (give_sec _ _ _ Gv') as (ql & l & xl & S). pose proof S as (H & Tl & _). destruct (eid_dec w l) as [->|Ne].
    + left. destruct (takes_fun T G a n _ _ _ _ _ _ _ Tk Tl) as [-> ->]. split; [reflexivity|]. apply H.
    + destruct (co_total _ Sa b0 w l (proj1 (takes_w T G a n X _ _ _ _ Tk)) (proj1 (takes_w T G a n X _ _ _ _ Tl)) Ne) as [Q|Q].
      * destruct (must_give l (Acc0 l) _ _ _ _ _ _ _ Tl Tk Q) as (qu & g & S'). right. exists qu, ql. pose proof S' as (H' & _). split; [destruct H'; lia|]. split; [|destruct H; lia].
        exact (ordered T G a n Ie W X K l (Acc0 l) _ _ _ _ _ _ _ _ _ S' Tl Q).
      * exfalso. exact (exclusion T G a n Ie W X K w (Acc0 w) _ _ _ _ _ _ _ _ _ S Tk Q C).
  - destruct (give_sec _ _ _ Gv) as (ql & l & xl & S). pose proof S as (H & Tl & _). right. exists q, q'. split; [lia|]. split; [|lia].
    exact (ordered T G a n Ie W X K w' (Acc0 w') _ _ _ _ _ _ _ _ _ S Tk' (co_trans _ Sa _ _ _ _ (sec_co T G a n X _ _ _ _ _ _ S) C)).
  - destruct (give_sec _ _ _ Gv) as (ql & l & xl & S), (give_sec _ _ _ Gv') as (ql' & l' & xl' & S'). pose proof S as (H & Tl & _). pose proof S' as (H' & Tl' & _). destruct (eid_dec l l') as [->|Ne].
    + exfalso. destruct (sec_fun T G a n _ _ _ _ _ _ _ _ _ _ _ S S') as (_ & _ & _ & ->). exact (Prop_lock.co_irr T G X b0 _ C).
    + destruct (co_total _ Sa b0 l l' (proj1 (takes_w T G a n X _ _ _ _ Tl)) (proj1 (takes_w T G a n X _ _ _ _ Tl')) Ne) as [Q|Q].
      * right. exists q, ql'. split; [lia|]. split; [|destruct H'; lia]. exact (ordered T G a n Ie W X K l' (Acc0 l') _ _ _ _ _ _ _ _ _ S Tl' Q).
      * exfalso. exact (exclusion T G a n Ie W X K l (Acc0 l) _ _ _ _ _ _ _ _ _ S' Tl Q (co_trans _ Sa _ _ _ _ (sec_co T G a n X _ _ _ _ _ _ S) C)).
Qed.
(* what a call is: idle, one that takes, one that gives back *)
Lemma call_kind t q c r its : call_at G t q c r its -> op_cell c = (a, n) ->
  idle c r = true \/
  (idle c r = false /\ is_store c = false /\ (exists w x, tk t q w x) /\ 0 < n /\ forall m, (forall b, a <= b < a + n -> m b = 0) -> op_spec (t_e T) c m (wr (t_e T) m a n 1) r) \/
  (idle c r = false /\ is_store c = true /\ (exists w, gv t q w) /\ forall m, op_spec (t_e T) c m (wr (t_e T) m a n 0) r).
Proof.
  intros C Ec. pose proof (n_pos T G a n X _ _ _ _ _ C Ec) as Pn. assert (forall m, (forall b, a <= b < a + n -> m b = 0) -> rd (t_e T) m a n = 0) as Rz.
  { intros m Z. rewrite <- (rd_zero (t_e T) a n ltac:(lia)). apply rd_ext. intros i Hi. apply Z. lia. }
  destruct (call_fact T c its r (smp_ie T Ie) W (ex_calls T G X _ _ _ _ _ C)) as (m0 & m0' & _ & _ & At). pose proof (ao_done _ _ _ _ _ _ At) as D. clear At.
  destruct (lk_calls _ _ _ _ K _ _ _ _ _ C Ec) as [Lc|[(o & -> & _)|[U _]]]; [|left; destruct r; reflexivity|].
  - destruct (idle c r) eqn:I; [now left|]. right. left. split; [reflexivity|]. split; [destruct Lc as [(o & -> & _)|(s & f & [->| ->] & _)]; reflexivity|]. assert (taken r) as Tk.
    { destruct Lc as [(o & -> & _)|(s & f & [->| ->] & _)], r as [v| |v ok]; try contradiction D; cbn [idle taken] in *; apply negb_false_iff in I; [now apply Z.eqb_eq in I|exact I|exact I]. }
    split; [exact (take T G a n Ie W X _ _ _ _ _ C Lc Tk)|]. split; [exact Pn|]. intros m Z. specialize (Rz m Z).
    destruct Lc as [(o & -> & _)|(s & f & [->| ->] & _ & Cb)], r as [v| |v ok]; try contradiction D; cbn [taken] in Tk; subst; unfold op_done in D; cbn [op_spec] in *; unfold swap_spec, cas_spec, casw_spec in *; cbn [fst snd] in *; rewrite ?Cb in D.
    + split; [now symmetry|intros b; reflexivity].
    + unfold cas_spec in D. cbn [fst snd] in D. destruct D as (-> & E & _). rewrite E, Rz. repeat split.
    + destruct D as (-> & E & _). rewrite E, Rz. repeat split.
  - right. right. destruct U as (o & -> & Ro). destruct r as [v| |v ok]; try contradiction D. split; [reflexivity|]. split; [reflexivity|]. split; [apply (give T G a n Ie W X _ _ _ _ _ C); exists o; auto|].
    intros m. cbn. intros b. reflexivity.
Qed.
End O.

(* ---- what the threads do ---- *)
Inductive lunit := LC (t q : nat) (c : op) (r : rval) | LM (u : eid * ev).
Definition l_act (u : lunit) : act := match u with LC _ _ c r => ACall c r | LM u => AMem (snd u) end.
Definition l_thr (u : lunit) : nat := match u with LC t _ _ _ => t | LM u => fst (fst u) end.
Definition ldatas (l : list lunit) : list (eid * ev) := flat_map (fun u => match u with LC _ _ _ _ => [] | LM u => [u] end) l.
Lemma in_ldatas u l : In u (ldatas l) <-> In (LM u) l.
Proof. unfold ldatas. rewrite in_flat_map. split; [intros ([t q c r|u'] & I & H); [destruct H|destruct H as [E|[]]; now subst]|intros I; exists (LM u); split; [exact I|now left]]. Qed.
Lemma ldatas_app l l' : ldatas (l ++ l') = ldatas l ++ ldatas l'.
Proof. apply flat_map_app. Qed.
Lemma ldatas_sorted R l : StronglySorted R l -> StronglySorted (fun a b => R (LM a) (LM b)) (ldatas l).
Proof.
  induction 1 as [|[t q c r|u] l S IH F]; [constructor|exact IH|]. cbn. constructor; [exact IH|]. rewrite Forall_forall in *. intros x I. apply F. now apply in_ldatas.
Qed.
Section P.
Context (T : arch) (G : graph) (Lk : Z -> Z -> Prop) (Ie : t_ie T = None) (W : t_wf T) (X : execution T G) (Ls : lock_system T G Lk) (F : race_free G (happens_before G)).
Notation Sa := (ex_sane T G X).
Notation HB := (fun (_ _ : eid) (H : happens_before G _ _) => H).
Lemma call_len t q c r its : call_at G t q c r its -> (base G t q < base G t (S q))%nat.
Proof.
  intros C. destruct (call_fact T c its r (smp_ie T Ie) W (ex_calls T G X _ _ _ _ _ C)) as (m & m' & _ & _ & [_ A]). destruct (seg_split G _ _ _ C) as (_ & _ & _ & _ & B). cbn [seg_its] in B.
  destruct A as [(_ & _ & _ & i & u & _ & A & _)|(k & v & _ & A & _)]; pose proof (at_lt _ _ _ A); lia.
Qed.
Definition l_key (u : lunit) : nat := match u with LC t q _ _ => base G t q | LM u => snd (fst u) end.
Definition l_good (u : lunit) : Prop := match u with LC t q c r => exists its, call_at G t q c r its | LM u => plain_at G (fst u) (snd u) end.
Definition l_list (t : nat) (l : list lunit) : Prop := map l_act l = acts (g_thr G t) /\ Forall l_good l /\ StronglySorted (fun a b => (l_key a < l_key b)%nat) l /\
  (forall q c r its, call_at G t q c r its -> In (LC t q c r) l) /\ (forall x v, plain_at G x v -> fst x = t -> In (LM (x, v)) l).
Lemma lunit_list t : exists l, l_list t l /\ Forall (fun u => l_thr u = t) l.
Proof.
  assert (forall suf pre, g_thr G t = pre ++ suf -> exists l, map l_act l = acts suf /\ Forall l_good l /\ StronglySorted (fun a b => (l_key a < l_key b)%nat) l /\
    Forall (fun u => l_thr u = t /\ (base G t (length pre) <= l_key u)%nat) l /\
    (forall q c r its, nth_error suf q = Some (Call c r its) -> In (LC t (length pre + q)%nat c r) l) /\
    forall q its i v, nth_error suf q = Some (Code its) -> at_ its i v -> In (LM ((t, (base G t (length pre + q) + i)%nat), v)) l) as K.
  { induction suf as [|s suf IH]; intros pre E.
    - exists []. repeat split; try constructor; intros q; intros; destruct q; discriminate.
    - destruct (IH (pre ++ [s])) as (l & H1 & H2 & H3 & H4 & H5 & H6); [now rewrite <- app_assoc|]. rewrite app_length in H4, H5, H6. cbn [length] in H4, H5, H6. replace (length pre + 1)%nat with (S (length pre)) in * by lia.
      assert (nth_error (g_thr G t) (length pre) = Some s) as Hs by (rewrite E, nth_error_app2, Nat.sub_diag by lia; reflexivity).
      pose proof (base_mono G t (length pre) (S (length pre)) ltac:(lia)) as Bm.
      assert (forall q its i v, nth_error suf q = Some (Code its) -> at_ its i v -> In (LM ((t, (base G t (length pre + S q) + i)%nat), v)) l) as H6'.
      { intros q its i v Hq A. specialize (H6 q its i v Hq A). now replace (length pre + S q)%nat with (S (length pre) + q)%nat by lia. }
      assert (forall q c r its, nth_error suf q = Some (Call c r its) -> In (LC t (length pre + S q)%nat c r) l) as H5'.
      { intros q c r its Hq. specialize (H5 q c r its Hq). now replace (length pre + S q)%nat with (S (length pre) + q)%nat by lia. }
      destruct s as [c r its|its].
      + pose proof (call_len _ _ _ _ _ Hs) as Gr.
        exists (LC t (length pre) c r :: l). split; [cbn [map acts flat_map l_act app]; rewrite H1; reflexivity|]. split; [constructor; [exists its; exact Hs|exact H2]|].
        split; [constructor; auto; eapply Forall_impl; [|exact H4]; intros u [_ ?]; cbn [l_key]; lia|].
        split; [constructor; [cbn [l_thr l_key]; auto|eapply Forall_impl; [|exact H4]; intros u [? ?]; split; [auto|lia]]|]. split.
        * intros [|q] c' r' its' Hq; [|right; exact (H5' q c' r' its' Hq)]. cbn in Hq. injection Hq as <- <- <-. rewrite Nat.add_0_r. now left.
        * intros [|q] its' i v Hq A; [discriminate Hq|]. right. exact (H6' q its' i v Hq A).
      + destruct (accs_list G t (length pre) its Hs) as (l0 & A1 & A2 & A3 & A4 & A5). exists (map LM l0 ++ l).
        split; [rewrite map_app, H1; cbn [acts flat_map]; f_equal; rewrite <- A1, !map_map; reflexivity|].
        split; [apply Forall_app; split; [rewrite Forall_forall in *; intros u I; apply in_map_iff in I; destruct I as (u0 & <- & I); exact (A2 u0 I)|exact H2]|].
        split; [apply ss_join; auto|].
        { clear - A4. induction A4 as [|a l0 S IH Fa]; [constructor|]. cbn. constructor; [exact IH|]. rewrite Forall_forall in *. intros u I. apply in_map_iff in I. destruct I as (u0 & <- & I). exact (Fa u0 I). }
        { intros a b Ia Ib. apply in_map_iff in Ia. destruct Ia as (a0 & <- & Ia). rewrite Forall_forall in A3, H4. destruct (A3 a0 Ia) as [_ [_ Q1]], (H4 b Ib) as [_ Q2]. exact (Nat.lt_le_trans _ _ _ Q1 Q2). }
        split; [apply Forall_app; split; [rewrite Forall_forall in *; intros u I; apply in_map_iff in I; destruct I as (u0 & <- & I); destruct (A3 u0 I) as [Q1 [Q2 _]]; split; [exact Q1|exact Q2]|eapply Forall_impl; [|exact H4]; intros u [? ?]; split; [auto|lia]]|]. split.
        * intros [|q] c' r' its' Hq; [discriminate Hq|]. apply in_or_app. right. exact (H5' q c' r' its' Hq).
        * intros [|q] its' i v Hq A; apply in_or_app; [left|right; exact (H6' q its' i v Hq A)]. cbn in Hq. injection Hq as <-. rewrite Nat.add_0_r. apply in_map. exact (A5 i v A). }
  destruct (K (g_thr G t) [] eq_refl) as (l & H1 & H2 & H3 & H4 & H5 & H6). exists l. split; [|eapply Forall_impl; [|exact H4]; intros u [? _]; auto]. split; [exact H1|]. split; [exact H2|]. split; [exact H3|]. split.
  - intros q c r its C. exact (H5 q c r its C).
  - intros [t' k] v (q & its & i & Hq & A & E) Et. cbn [fst snd] in *. subst t' k. exact (H6 q its i v Hq A).
Qed.

(* ---- the order ---- *)
Notation opc c := (opw T G (fst (op_cell c)) (snd (op_cell c))).
Notation low c := (lowb (t_e T) (fst (op_cell c)) (snd (op_cell c))).
Definition lpo (u u' : lunit) : Prop := l_thr u = l_thr u' /\ (l_key u < l_key u')%nat.
Definition lfirst (u u' : lunit) : Prop :=
  match u, u' with LC t q c r, LC t' q' c' r' => op_cell c = op_cell c' /\ exists w w', opc c t q w /\ opc c t' q' w' /\ g_co G (low c) w w' | LM x, LM y => dfirst G x y | _, _ => False end.
Definition lufirst (u u' : lunit) : Prop := lpo u u' \/ lfirst u u'.
Definition lhb (u u' : lunit) : Prop := lpo u u' \/ exists q1 q2, (l_key u <= base G (l_thr u) q1)%nat /\ reaches G (l_thr u, q1) (l_thr u', q2) /\ (base G (l_thr u') q2 <= l_key u')%nat.
Lemma reach_ends p1 p2 : reaches G p1 p2 -> (base G (fst p1) (snd p1) < base G (fst p1) (S (snd p1)))%nat.
Proof.
  assert (forall p p', syncs G p p' -> (base G (fst p) (snd p) < base G (fst p) (S (snd p)))%nat) as K by (intros p p' (c1 & r1 & its1 & c2 & r2 & its2 & w & r & C1 & _); exact (call_len _ _ _ _ _ C1)).
  intros [a b S|a t q q' b S _ _]; exact (K _ _ S).
Qed.
Lemma lhb_trans u v w : lhb u v -> lhb v w -> lhb u w.
Proof.
  intros [[E L]|(q1 & q2 & A & R & B)] [[E' L']|(q3 & q4 & A' & R' & B')].
  - left. split; [congruence|lia].
  - right. exists q3, q4. rewrite E. split; [lia|]. auto.
  - right. exists q1, q2. rewrite <- E'. split; [exact A|]. split; [exact R|lia].
  - right. exists q1, q4. split; [exact A|]. split; [|exact B']. refine (reaches_trans G _ _ _ q3 _ R _ R').
    destruct (Nat.le_gt_cases q2 q3) as [Q|Q]; [exact Q|]. pose proof (reach_ends _ _ R') as K. cbn [fst snd] in K. pose proof (base_mono G (l_thr v) (S q3) q2 Q). lia.
Qed.
Lemma lhb_irr u : ~ lhb u u.
Proof.
  intros [[_ L]|(q1 & q2 & A & R & B)]; [lia|]. pose proof (reach_irr T G Ie W X _ _ _ R) as L. pose proof (reach_ends _ _ R) as K. cbn [fst snd] in K. pose proof (base_mono G (l_thr u) (S q1) q2 L). lia.
Qed.
Lemma cell_lock t q c r its : call_at G t q c r its -> lock_client T G (fst (op_cell c)) (snd (op_cell c)).
Proof. intros C. exact (ls_locks _ _ _ Ls _ _ (ls_calls _ _ _ Ls _ _ _ _ _ C)). Qed.
Lemma lufirst_lhb u u' : l_good u -> l_good u' -> lufirst u u' -> lhb u u'.
Proof.
  intros Gu Gu' [P|Fi]; [now left|]. destruct u as [t q c r|x], u' as [t' q' c' r'|y]; try destruct Fi.
  - destruct Gu as (its & C), Gu' as (its' & C'). destruct H0 as (w & w' & O & O' & Co).
    destruct (opw_order T G _ _ Ie W X (cell_lock _ _ _ _ _ C) _ _ _ _ _ _ O O' Co) as [[-> L]|(q1 & q2 & L1 & R & L2)].
    + left. split; [reflexivity|]. cbn [l_key]. pose proof (call_len _ _ _ _ _ C). pose proof (base_mono G t' (S q) q' L). lia.
    + right. exists q1, q2. cbn [l_key l_thr]. split; [exact (base_mono G t q q1 L1)|]. split; [exact R|exact (base_mono G t' q2 q' L2)].
  - assert (happens_before G (fst x) (fst y)) as H0 by (apply (dfirst_hb T G Ie W X _ (fun _ _ H => H) F x y Gu Gu'); left; assumption).
    destruct H0 as [P|(t1 & q1 & t2 & q2 & [B1 B2] & R & [A1 A2])]; [left; exact P|right]. exists q1, q2. cbn [l_key l_thr]. rewrite B1, A1. pose proof (base_mono G t2 q2 (S q2) ltac:(lia)). split; [lia|]. split; [exact R|lia].
  - assert (happens_before G (fst x) (fst y)) as H0 by (apply (dfirst_hb T G Ie W X _ (fun _ _ H => H) F x y Gu Gu'); right; assumption).
    destruct H0 as [P|(t1 & q1 & t2 & q2 & [B1 B2] & R & [A1 A2])]; [left; exact P|right]. exists q1, q2. cbn [l_key l_thr]. rewrite B1, A1. pose proof (base_mono G t2 q2 (S q2) ltac:(lia)). split; [lia|]. split; [exact R|lia].
Qed.
Lemma opc_idle t q c r its w : call_at G t q c r its -> opc c t q w -> idle c r = false.
Proof.
  intros C [(x & c' & r' & its' & v & u & C' & Lc & Tk & _)|(c' & r' & its' & v & C' & (o & E & _) & _)]; unfold call_at in *; rewrite C in C'; injection C' as <- <- <-.
  - destruct Lc as [(o & E & _)|(s & f & [E|E] & _)]; destruct c; try discriminate E; destruct r; cbn [taken idle] in *; subst; try reflexivity; destruct Tk.
  - destruct c; try discriminate E. reflexivity.
Qed.
Lemma opc_some t q c r its : call_at G t q c r its -> idle c r = false -> exists w, opc c t q w.
Proof.
  intros C I. destruct (call_kind T G _ _ Ie W X (cell_lock _ _ _ _ _ C) _ _ _ _ _ C) as [Q|[(_ & _ & (w & x & H) & _)|(_ & _ & (w & H) & _)]]; [now destruct (op_cell c)|congruence| |].
  - exists w. left. now exists x.
  - exists w. now right.
Qed.
Lemma lufirst_dec u u' : l_good u -> l_good u' -> lufirst u u' \/ ~ lufirst u u'.
Proof.
  intros Gu Gu'. unfold lufirst. assert (lpo u u' \/ ~ lpo u u') as [P|P] by (unfold lpo; destruct (Nat.eq_dec (l_thr u) (l_thr u')), (lt_dec (l_key u) (l_key u')); tauto); [left; now left|].
  assert (lfirst u u' \/ ~ lfirst u u') as [Q|Q]; [|tauto|tauto]. clear P. destruct u as [t q c r|x], u' as [t' q' c' r'|y]; cbn [lfirst]; [|tauto|tauto|exact (dfirst_dec T G Ie W X _ (fun _ _ H => H) F x y Gu Gu')].
  destruct Gu as (its & C), Gu' as (its' & C').
  assert (op_cell c = op_cell c' \/ op_cell c <> op_cell c') as [Ec|Ec] by (destruct (op_cell c) as [x1 x2], (op_cell c') as [y1 y2]; destruct (Z.eq_dec x1 y1), (Z.eq_dec x2 y2); subst; [now left|right; congruence|right; congruence|right; congruence]); [|right; tauto].
  destruct (idle c r) eqn:I; [right; intros (_ & w & w' & O & _); pose proof (opc_idle _ _ _ _ _ _ C O); congruence|].
  destruct (idle c' r') eqn:I'; [right; intros (_ & w & w' & _ & O & _); rewrite Ec in O; pose proof (opc_idle _ _ _ _ _ _ C' O); congruence|].
  destruct (opc_some _ _ _ _ _ C I) as (w & O), (opc_some _ _ _ _ _ C' I') as (w' & O'). rewrite <- Ec in O'.
  assert (forall w1 w1', opc c t q w1 -> opc c t' q' w1' -> w1 = w /\ w1' = w') as U by (intros w1 w1' H H'; split; [exact (opw_fun T G _ _ Ie W X _ _ _ _ H O)|exact (opw_fun T G _ _ Ie W X _ _ _ _ H' O')]).
  destruct (eid_dec w w') as [<-|Ne].
  - right. intros (_ & w1 & w1' & H & H' & Co). destruct (U _ _ H H') as [-> ->]. exact (Prop_lock.co_irr T G X _ _ Co).
  - destruct (co_total _ Sa (low c) w w' (opw_w T G _ _ X _ _ _ O) (opw_w T G _ _ X _ _ _ O') Ne) as [Co|Co]; [left; split; [exact Ec|exists w, w'; auto]|].
    right. intros (_ & w1 & w1' & H & H' & Co'). destruct (U _ _ H H') as [-> ->]. exact (Prop_lock.co_irr T G X _ _ (co_trans _ Sa _ _ _ _ Co Co')).
Qed.

Section L.
Context (L : list lunit) (N : nat) (HN : forall t, (N <= t)%nat -> g_thr G t = []) (HL : Forall (fun u => (l_thr u < N)%nat) L) (HT : forall t, (t < N)%nat -> l_list t (filter (of_thr l_thr t) L)).
Lemma l_L_good u : In u L -> l_good u.
Proof.
  intros I. rewrite Forall_forall in HL. destruct (HT (l_thr u) (HL u I)) as (_ & Fg & _). rewrite Forall_forall in Fg. apply Fg. apply filter_In. split; [exact I|apply Nat.eqb_refl].
Qed.
Lemma l_thr_lt t q s : nth_error (g_thr G t) q = Some s -> (t < N)%nat.
Proof. intros C. destruct (Nat.lt_ge_cases t N) as [Lt|Ge]; [exact Lt|]. rewrite (HN t Ge) in C. destruct q; discriminate C. Qed.
Lemma L_calls t q c r its : call_at G t q c r its -> In (LC t q c r) L.
Proof. intros C. destruct (HT t (l_thr_lt _ _ _ C)) as (_ & _ & _ & K & _). specialize (K q c r its C). apply filter_In in K. apply K. Qed.
Lemma L_datas x v : plain_at G x v <-> In (x, v) (ldatas L).
Proof.
  split.
  - intros Px. assert (fst x < N)%nat as Lt by (destruct Px as (q & its & i & Hq & _); exact (l_thr_lt _ _ _ Hq)).
    destruct (HT (fst x) Lt) as (_ & _ & _ & _ & K). specialize (K x v Px eq_refl). apply filter_In in K. apply in_ldatas. apply K.
  - intros I. apply in_ldatas in I. exact (l_L_good _ I).
Qed.
Lemma l_L_nodup : NoDup L.
Proof.
  apply (nodup_threads l_thr l_key). intros t. apply ss_nodup. destruct (Nat.lt_ge_cases t N) as [Lt|Ge]; [apply (HT t Lt)|]. rewrite filter_none; [constructor|]. eapply Forall_impl; [|exact HL]. intros u Hu. unfold of_thr. apply Nat.eqb_neq. cbv beta in Hu. lia.
Qed.
Lemma lufirst_acyclic u : ~ clos_trans _ (on lufirst L) u u.
Proof.
  assert (forall u u', clos_trans _ (on lufirst L) u u' -> lhb u u') as K by (intros v v' H; induction H as [v v' (I & I' & H)|v v' v'' _ H1 _ H2]; [exact (lufirst_lhb _ _ (l_L_good _ I) (l_L_good _ I') H)|exact (lhb_trans _ _ _ H1 H2)]).
  intros H. exact (lhb_irr _ (K _ _ H)).
Qed.
(* ---- the memory ---- *)
Definition lapply (m : mem) (u : lunit) : mem :=
  match u with
  | LC t q c r => if idle c r then m else wr (t_e T) m (fst (op_cell c)) (snd (op_cell c)) (if is_store c then 0 else 1)
  | LM x => dapply m x
  end.
Definition lmem (P : list lunit) : mem := fold_left lapply P (g_init G).
Lemma lmem_snoc P u : lmem (P ++ [u]) = lapply (lmem P) u.
Proof. unfold lmem. now rewrite fold_left_app. Qed.
Lemma wr_out m a n v b : ~ (a <= b < a + n) -> wr (t_e T) m a n v b = m b.
Proof. intros H. unfold wr. destruct ((a <=? b) && (b <? a + n)) eqn:E; [apply andb_true_iff in E; destruct E; exfalso; apply H; lia|reflexivity]. Qed.
Lemma lmem_out P b : incl P L -> outside G b -> lmem P b = dmem G (ldatas P) b.
Proof.
  intros Ip Ob. induction P as [|u P IH] using rev_ind; [reflexivity|]. rewrite lmem_snoc, ldatas_app. assert (incl P L) as Ip' by (intros z Z; apply Ip, in_or_app; now left). specialize (IH Ip'). destruct u as [t q c r|x]; cbn [ldatas flat_map app lapply].
  - rewrite app_nil_r. destruct (idle c r); [exact IH|]. rewrite wr_out; [exact IH|]. assert (In (LC t q c r) L) as I by (apply Ip, in_or_app; right; now left). destruct (l_L_good _ I) as (its & C). exact (Ob _ _ _ _ _ C).
  - rewrite dmem_snoc. unfold dapply. now rewrite IH.
Qed.
(* the bytes of a lock are as the last unit left them that changed it *)
Lemma lmem_cell a n P b : Lk a n -> a <= b < a + n -> incl P L ->
  (lmem P b = 0 /\ forall t q c r, op_cell c = (a, n) -> idle c r = false -> ~ In (LC t q c r) P) \/
  exists P1 t q c r P2, P = P1 ++ LC t q c r :: P2 /\ op_cell c = (a, n) /\ idle c r = false /\ (is_store c = true -> lmem P b = 0) /\
    forall t' q' c' r', op_cell c' = (a, n) -> idle c' r' = false -> ~ In (LC t' q' c' r') P2.
Proof.
  intros Hk Hb Ip. induction P as [|u P IH] using rev_ind; [left; split; [exact (lk_init _ _ _ _ (ls_locks _ _ _ Ls _ _ Hk) b Hb)|intros t q c r _ _ []]|].
  assert (incl P L) as Ip' by (intros z Z; apply Ip, in_or_app; now left). specialize (IH Ip'). assert (In u L) as Iu by (apply Ip, in_or_app; right; now left). pose proof (l_L_good _ Iu) as Gu.
  assert ((exists t q c r, u = LC t q c r /\ op_cell c = (a, n) /\ idle c r = false) \/ ((forall t q c r, op_cell c = (a, n) -> idle c r = false -> u <> LC t q c r) /\ lapply (lmem P) u b = lmem P b)) as D.
  { destruct u as [t q c r|x].
    - cbn [lapply]. destruct (idle c r) eqn:I; [right; split; [intros t' q' c' r' _ I' E; injection E as -> -> -> ->; congruence|reflexivity]|]. destruct Gu as (its & C).
      destruct (ls_apart _ _ _ Ls _ _ _ _ (ls_calls _ _ _ Ls _ _ _ _ _ C) Hk) as [E|Dj].
      + left. exists t, q, c, r. split; [reflexivity|]. split; [|exact I]. destruct (op_cell c); exact E.
      + right. split.
        * intros t' q' c' r' Ec _ E. injection E as -> -> -> ->. rewrite Ec in Dj. unfold disjoint in Dj. cbn [fst snd] in Dj. lia.
        * apply wr_out. intros Q. unfold disjoint in Dj. cbn [fst snd] in Dj. lia.
    - right. split; [intros; discriminate|]. cbn [lapply]. destruct (dapply_spec (lmem P) x b) as [(Wx & Cx & _)|(_ & ->)]; [|reflexivity]. exfalso.
      destruct (lk_writes _ _ _ _ (ls_locks _ _ _ Ls _ _ Hk) (fst x) b Hb) as (t & q & c & r & its & C & (Fx & i & Ei & v & A & _) & _); [exists (snd x); split; [now apply plain_ev|auto]|].
      refine (call_not_plain G t q c r its i v (fst x) (snd x) C A _ Gu). destruct (fst x). cbn [fst snd] in *. congruence. }
  rewrite lmem_snoc. destruct D as [(t & q & c & r & -> & Ec & I)|(Nu & ->)].
  - right. exists P, t, q, c, r, []. split; [reflexivity|]. split; [exact Ec|]. split; [exact I|]. split; [|intros; intros []]. intros St. cbn [lapply]. rewrite I, St, Ec. exact (wr_zero _ _ _ _ _ Hb).
  - destruct IH as [[V Nn]|(P1 & t & q & c & r & P2 & -> & Ec & I & V & Nn)].
    + left. split; [exact V|]. intros t q c r Ec I J. apply in_app_or in J. destruct J as [J|[J|[]]]; [exact (Nn t q c r Ec I J)|exact (Nu t q c r Ec I J)].
    + right. exists P1, t, q, c, r, (P2 ++ [u]). split; [now rewrite <- app_assoc|]. split; [exact Ec|]. split; [exact I|]. split; [exact V|].
      intros t' q' c' r' Ec' I' J. apply in_app_or in J. destruct J as [J|[J|[]]]; [exact (Nn t' q' c' r' Ec' I' J)|exact (Nu t' q' c' r' Ec' I' J)].
Qed.
(* [S]: some of the units, and with each of them those that must come before it *)
Section S.
Context (S : list lunit) (Is : incl S L) (Nd0 : NoDup S) (Scl : forall u v, In u L -> In v S -> lufirst u v -> In u S) (So : StronglySorted (fun a b => ~ lufirst b a) S).
Lemma l_Sd_sorted : StronglySorted (fun a b => ~ dfirst G b a) (ldatas S).
Proof. refine (ss_weaken _ _ _ _ (ldatas_sorted _ _ So)). intros a b _ _ H Q. apply H. now right. Qed.
Lemma l_Sd_plain u : In u (ldatas S) -> plain_u G u.
Proof. intros I. apply in_ldatas, Is in I. exact (l_L_good _ I). Qed.
Lemma l_Sd_first u n : plain_u G u -> In n (ldatas S) -> dfirst G u n -> In u (ldatas S).
Proof. intros Pu I D. apply in_ldatas. apply in_ldatas in I. apply (Scl _ (LM n)); [|exact I|now right]. apply in_ldatas. destruct u as [x v]. now apply L_datas. Qed.
Lemma l_step_c P u Q : S = P ++ u :: Q -> lock_step (t_e T) (l_act u) (lmem P) (lmem (P ++ [u])).
Proof.
  intros E. assert (incl P L) as Ip by (intros z Z; apply Is; rewrite E; apply in_or_app; now left).
  assert (In u L) as Iu by (apply Is; rewrite E; apply in_or_app; right; now left). pose proof (l_L_good _ Iu) as Gu. pose proof Nd0 as Nd. rewrite E in Nd. pose proof So as So'. rewrite E in So'.
  destruct u as [t q c r|x]; cbn [l_act lock_step].
  - rewrite lmem_snoc. cbn [lapply]. destruct (idle c r) eqn:I; [intros b; reflexivity|]. destruct Gu as (its & C). pose proof (ls_calls _ _ _ Ls _ _ _ _ _ C) as Hk. pose proof (cell_lock _ _ _ _ _ C) as Kl.
    destruct (call_kind T G _ _ Ie W X Kl _ _ _ _ _ C) as [Q0|[(_ & St & (w & x & Tk) & Pn & Sp)|(_ & St & _ & Sp)]]; [now destruct (op_cell c)|congruence| |rewrite St; apply Sp].
    rewrite St. apply Sp. intros b Hb. destruct (lmem_cell _ _ P b Hk Hb Ip) as [[V _]|(P1 & t1 & q1 & c1 & r1 & P2 & EP & Ec1 & I1 & V & Nn)]; [exact V|]. apply V. destruct (is_store c1) eqn:St1; [reflexivity|exfalso].
    assert (In (LC t1 q1 c1 r1) P) as J1 by (rewrite EP; apply in_or_app; right; now left). destruct (l_L_good _ (Ip _ J1)) as (its1 & C1).
    assert (op_cell c1 = op_cell c) as Ec by (rewrite Ec1; now destruct (op_cell c)).
    destruct (call_kind T G _ _ Ie W X Kl _ _ _ _ _ C1 Ec1) as [Q0|[(_ & _ & (w1 & x1 & Tk1) & _)|(_ & Q0 & _)]]; [congruence| |congruence].
    pose proof (takes_w T G _ _ X _ _ _ _ Tk) as (Ww & _). pose proof (takes_w T G _ _ X _ _ _ _ Tk1) as (Ww1 & _).
    assert (w1 <> w) as Ne.
    { intros ->. destruct (takes_fun T G _ _ _ _ _ _ _ _ _ Tk1 Tk) as [-> ->]. unfold call_at in *. rewrite C in C1. injection C1 as -> -> _. exact (NoDup_remove_2 _ _ _ Nd (in_or_app _ _ _ (or_introl J1))). }
    destruct (ss_app _ _ _ So') as (_ & So2 & K).
    assert (g_co G (low c) w1 w) as Co.
    { apply (co_or T G X); auto. intros Co. apply (K _ (LC t q c r) J1 (or_introl eq_refl)). right. split; [now symmetry|]. exists w, w1. split; [left; now exists x|]. split; [left; now exists x1|exact Co]. }
    destruct (must_give T G _ _ Ie W X Kl w (co_acc T G _ _ X Kl _ w) _ _ _ _ _ _ _ Tk Tk1 Co) as (qu & g & Sc). pose proof Sc as (_ & _ & Gv).
    assert (g_co G (low c) g w) as Cg.
    { apply (co_or T G X); auto; [exact (gives_w T G _ _ _ _ _ Gv)|exact (vals T G _ _ _ _ _ _ _ _ _ Tk Gv)|]. exact (exclusion T G _ _ Ie W X Kl w (co_acc T G _ _ X Kl _ w) _ _ _ _ _ _ _ _ _ Sc Tk Co). }
    pose proof Gv as (cg & rg & itg & vg & Cgv & Ug & _). assert (op_cell cg = (fst (op_cell c), snd (op_cell c))) as Ecg by (destruct Ug as (o & Eg & _); rewrite Eg; reflexivity).
    assert (op_cell cg = op_cell c) as Ecg' by (rewrite Ecg; now destruct (op_cell c)).
    assert (idle cg rg = false) as Ig by (destruct Ug as (o & Eg & _); rewrite Eg; reflexivity).
    assert (lufirst (LC t1 qu cg rg) (LC t q c r)) as Fg by (right; split; [exact Ecg'|]; rewrite Ecg'; exists g, w; split; [right; exact Gv|]; split; [left; now exists x|exact Cg]).
    assert (In (LC t1 qu cg rg) S) as Jg by (apply (Scl _ (LC t q c r)); [exact (L_calls _ _ _ _ _ Cgv)|rewrite E; apply in_or_app; right; now left|exact Fg]).
    assert (lufirst (LC t1 q1 c1 r1) (LC t1 qu cg rg)) as F1 by (right; split; [congruence|]; rewrite Ec; exists w1, g; split; [left; now exists x1|]; split; [right; exact Gv|exact (sec_co T G _ _ X _ _ _ _ _ _ Sc)]).
    rewrite E in Jg. apply in_app_or in Jg. destruct Jg as [Jg|[Jg|Jg]].
    + rewrite EP in Jg. apply in_app_or in Jg. destruct Jg as [Jg|[Jg|Jg]].
      * rewrite EP in So'. rewrite <- app_assoc in So'. destruct (ss_app _ _ _ So') as (_ & _ & K1). exact (K1 _ (LC t1 q1 c1 r1) Jg (or_introl eq_refl) F1).
      * injection Jg as -> -> ->. destruct Ug as (o & Eg & _). rewrite Eg in St1. discriminate St1.
      * exact (Nn _ _ _ _ Ecg Ig Jg).
    + injection Jg as -> -> -> ->. destruct Ug as (o & Eg & _). rewrite Eg in St. discriminate St.
    + apply StronglySorted_inv in So2. destruct So2 as [_ So2]. rewrite Forall_forall in So2. exact (So2 _ Jg Fg).
  - pose proof (dstep_c T G Ie W X _ (fun _ _ H => H) F (ldatas S) l_Sd_plain l_Sd_first l_Sd_sorted (ldatas P) x (ldatas Q) ltac:(rewrite E, ldatas_app; reflexivity)) as D. unfold plain_step in *. rewrite lmem_snoc. cbn [lapply]. destruct (e_w (snd x)) eqn:Wx.
    + intros b. destruct (dapply_spec (lmem P) x b) as [(_ & C & ->)|(Nn & ->)]; split; auto; [contradiction|intros C; destruct Nn; auto].
    + split; [|intros b; destruct (dapply_spec (lmem P) x b) as [(Q1 & _)|(_ & ->)]; [congruence|reflexivity]]. intros b C. rewrite (lmem_out P b Ip (d_out G _ F _ _ _ Gu C)). now apply D.
Qed.
End S.
Section A.
Context (S : list lunit) (Pm : Permutation L S) (So : StronglySorted (fun a b => ~ lufirst b a) S).
Lemma l_step P u Q : S = P ++ u :: Q -> lock_step (t_e T) (l_act u) (lmem P) (lmem (P ++ [u])).
Proof.
  apply (l_step_c S); [intros z; apply Permutation_in; now apply Permutation_sym|exact (Permutation_NoDup Pm l_L_nodup)|intros v w I _ _; exact (Permutation_in _ Pm I)|exact So].
Qed.
Lemma l_Sd_all x v : In (x, v) (ldatas S) <-> plain_at G x v.
Proof.
  rewrite L_datas. assert (Permutation (ldatas L) (ldatas S)) as Q by (apply Permutation_flat_map; exact Pm). split; apply Permutation_in; [now apply Permutation_sym|exact Q].
Qed.
Lemma l_final b : outside G b -> ((forall w, ~ writes_b G w b) -> lmem S b = g_init G b) /\
  (forall w v, ev_at G w v -> e_w v = true -> covers v b -> (forall w', ~ g_co G b w w') -> lmem S b = e_b v b).
Proof.
  intros Ob. assert (incl S L) as Is by (intros z; apply Permutation_in; now apply Permutation_sym). rewrite (lmem_out S b Is Ob). exact (dfinal T G Ie W X _ F (ldatas S) l_Sd_all (l_Sd_sorted S So) b Ob).
Qed.
End A.
End L.
End P.

(* ---- theorem ---- *)
(* calls and accesses together are interleaved; the interleaving leaves in the data what the last writes wrote *)
Theorem C42_locks T G Lk : t_ie T = None -> t_wf T -> execution T G -> lock_system T G Lk -> race_free G (happens_before G) ->
  exists mf, merged (lock_step (t_e T)) (fun t => acts (g_thr G t)) (g_init G) mf /\
    forall b, (forall t q c r its, call_at G t q c r its -> ~ in_cell c b) ->
      ((forall w, ~ writes_b G w b) -> mf b = g_init G b) /\
      (forall w v, ev_at G w v -> e_w v = true -> covers v b -> (forall w', ~ g_co G b w w') -> mf b = e_b v b).
Proof.
  intros Ie W X Ls F. destruct (df_fin _ _ F) as (N & HN). destruct (collect l_thr (l_list G) N (fun t _ => lunit_list T G Ie W X t)) as (L & HL & HT).
  destruct (topo (lufirst T G) (length L) L eq_refl) as (S & Pm & So).
  { intros x y Ix Iy. apply (lufirst_dec T G Lk Ie W X Ls F); [exact (l_L_good G L N HL HT x Ix)|exact (l_L_good G L N HL HT y Iy)]. }
  { exact (lufirst_acyclic T G Lk Ie W X Ls F L N HL HT). }
  exists (lmem T G S). split.
  - pose proof (mg_replay l_thr l_act (lock_step (t_e T)) (lmem T G) S (fun P u Q E => l_step T G Lk Ie W X Ls F L N HN HL HT S Pm So P u Q E) S [] eq_refl) as H.
    refine (mg_ext _ _ _ _ _ _ H). intros t. rewrite (same_threads l_thr (l_key G) (lufirst T G) L S); auto.
    + destruct (Nat.lt_ge_cases t N) as [Lt|Ge]; [now destruct (HT t Lt) as (E & _)|]. rewrite (HN t Ge), filter_none; [reflexivity|]. eapply Forall_impl; [|exact HL]. intros u Hu. unfold of_thr. apply Nat.eqb_neq. cbv beta in Hu. lia.
    + intros a b E Lt. left. split; auto.
    + intros t'. destruct (Nat.lt_ge_cases t' N) as [Lt|Ge]; [now destruct (HT t' Lt) as (_ & _ & Q & _)|]. rewrite filter_none; [constructor|]. eapply Forall_impl; [|exact HL]. intros u Hu. unfold of_thr. apply Nat.eqb_neq. cbv beta in Hu. lia.
  - intros b Ob. exact (l_final T G Ie W X F L N HN HL HT S Pm So b Ob).
Qed.
(* races are excluded by the discipline: two threads touch a byte, one of them writing it, only while each holds one and the same lock *)
Record guarded (T : arch) (G : graph) (Lk : Z -> Z -> Prop) : Prop := {
  gu_order : forall x y, conflict G x y -> fst x <> fst y -> exists a n l1 u1 l2 u2, Lk a n /\
    holds T G a n (fst x) l1 u1 /\ inside G x (fst x) l1 u1 /\ holds T G a n (fst y) l2 u2 /\ inside G y (fst y) l2 u2;
  gu_cells : forall x v b t q c r its, plain_at G x v -> covers v b -> call_at G t q c r its -> ~ in_cell c b;
  gu_whole : forall x v, plain_at G x v -> e_t v = false;
  gu_fin : exists N, forall t, (N <= t)%nat -> g_thr G t = []
}.
Theorem C42_no_race T G Lk : t_ie T = None -> t_wf T -> execution T G -> lock_system T G Lk -> guarded T G Lk -> race_free G (happens_before G).
Proof.
  intros Ie W X Ls Gu. constructor; [|exact (gu_cells _ _ _ Gu)|exact (gu_whole _ _ _ Gu)|exact (gu_fin _ _ _ Gu)].
  intros x y Cf Ne. destruct (gu_order _ _ _ Gu x y Cf Ne) as (a & n & l1 & u1 & l2 & u2 & Hk & H1 & I1 & H2 & I2).
  destruct (C38_mutual_exclusion T G a n Ie W X (ls_locks _ _ _ Ls _ _ Hk) _ _ _ _ _ _ H1 H2 ltac:(intros E; injection E; auto)) as [H|H]; [left|right]; exact (H x y I1 I2).
Qed.
Theorem C42_guarded T G Lk : t_ie T = None -> t_wf T -> execution T G -> lock_system T G Lk -> guarded T G Lk ->
  exists mf, merged (lock_step (t_e T)) (fun t => acts (g_thr G t)) (g_init G) mf /\
    forall b, (forall t q c r its, call_at G t q c r its -> ~ in_cell c b) ->
      ((forall w, ~ writes_b G w b) -> mf b = g_init G b) /\
      (forall w v, ev_at G w v -> e_w v = true -> covers v b -> (forall w', ~ g_co G b w w') -> mf b = e_b v b).
Proof. intros Ie W X Ls Gu. exact (C42_locks T G Lk Ie W X Ls (C42_no_race T G Lk Ie W X Ls Gu)). Qed.
