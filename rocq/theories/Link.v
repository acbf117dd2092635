(* L3: the accesses of one completed call (Items.v) tied to its one atomic effect (Steps.v).  Proof machinery. *)
From Verif Require Export MemOrder.

Definition noW (l : list item) : Prop := forall v, In (IE v) l -> e_w v = false.
Definition noE (l : list item) : Prop := forall v, ~ In (IE v) l.
Definition cov (v : ev) (b : Z) : Prop := e_a v <= b < e_a v + e_n v.
Lemma noE_noW l : noE l -> noW l.
Proof. intros H v I. exfalso. exact (H v I). Qed.
Lemma noW_app a b : noW a -> noW b -> noW (a ++ b).
Proof. intros A B v I. apply in_app_or in I. destruct I; auto. Qed.
Lemma noE_app a b : noE a -> noE b -> noE (a ++ b).
Proof. intros A B v I. apply in_app_or in I. destruct I; [exact (A v H)|exact (B v H)]. Qed.
Lemma noE_fulls b : noE (fulls b).
Proof. intros v. destruct b; cbn; [intros [H|[]]; discriminate H|intros []]. Qed.
Lemma noE_nil : noE [].
Proof. intros v []. Qed.
Lemma noE_one x : (forall v, x <> IE v) -> noE [x].
Proof. intros H v [E|[]]. exact (H v E). Qed.

(* the memory [m] with byte [b] changed to [z] *)
Definition mset (m : mem) (b z : Z) : mem := fun x => if x =? b then z else m x.
Lemma mset_same m b z : mset m b z b = z.
Proof. unfold mset. now rewrite Z.eqb_refl. Qed.
Lemma mset_other m b z x : x <> b -> mset m b z x = m x.
Proof. intros H. unfold mset. now rewrite (proj2 (Z.eqb_neq _ _) H). Qed.
Lemma wf_mset m b z : wf_mem m -> 0 <= z < 256 -> wf_mem (mset m b z).
Proof. intros W Z x. unfold mset. destruct (x =? b); auto. Qed.
Lemma rd_mset e m b z a n : ~ (a <= b < a + n) -> rd e (mset m b z) a n = rd e m a n.
Proof. intros H. apply rd_ext. intros i Hi. apply mset_other. lia. Qed.
Lemma wr_in e m m' a n v x : a <= x < a + n -> wr e m a n v x = wr e m' a n v x.
Proof. intros H. unfold wr. destruct ((a <=? x) && (x <? a + n)) eqn:E; [reflexivity|]. apply andb_false_iff in E. destruct E; lia. Qed.
Lemma wr_mset e m b z a n v : ~ (a <= b < a + n) -> meq (wr e (mset m b z) a n v) (mset (wr e m a n v) b z).
Proof.
  intros H x. destruct (Z_lt_dec x a) as [L|L]; [|destruct (Z_lt_dec x (a + n)) as [L'|L']].
  - rewrite wr_outside by lia. unfold mset. rewrite wr_outside by lia. reflexivity.
  - rewrite (mset_other _ b) by lia. apply wr_in. lia.
  - rewrite wr_outside by lia. unfold mset. rewrite wr_outside by lia. reflexivity.
Qed.
Definition omod (o : oracle) (b z : Z) : oracle := mkor (mset (o_mem o) b z) (o_ok o) (o_junk o).

Section L.
Context (M : mm) (e : endian) (p : list instr).

(* ---- one instruction ---- *)
Lemma emit_noW i o s t : wrote e i o s = false -> noW (emit M e i o s t).
Proof.
  intros W v I. destruct i; cbn [emit wrote] in *; try discriminate W; rewrite ?W in I;
  repeat match type of I with
    | In _ (_ ++ _) => apply in_app_or in I; destruct I as [I|I]
    | In _ (fulls ?b) => exfalso; exact (noE_fulls b v I)
    | In _ (if reads _ then _ else _) => destruct (reads _)
    | In _ (match ?x with Some _ => _ | None => _ end) => destruct x; [discriminate W|]
    | In _ (_ :: _) => destruct I as [I|I]
    | In _ [] => contradiction I end; try discriminate I; injection I as <-; reflexivity.
Qed.
Lemma emit_noE i o s t : reads_i i = false -> wrote e i o s = false -> noE (emit M e i o s t).
Proof.
  intros R W v I. destruct i; cbn [emit wrote reads_i] in *; try discriminate W; try discriminate R; rewrite ?W, ?R in I;
  repeat match type of I with
    | In _ (_ ++ _) => apply in_app_or in I; destruct I as [I|I]
    | In _ (fulls ?b) => exact (noE_fulls b v I)
    | In _ (match ?x with Some _ => _ | None => _ end) => destruct x; [discriminate W|]
    | In _ (_ :: _) => destruct I as [I|I]
    | In _ [] => contradiction I end; discriminate I.
Qed.
(* an instruction that writes: its write event *)
Lemma emit_write i o s t s' m' : wrote e i o s = true -> exec e p i o s = Some (s', m') ->
  exists A v B, emit M e i o s t = A ++ IE v :: B /\ noW A /\ noE B /\ e_w v = true /\ e_b v = m' /\
    (forall b, ~ cov v b -> m' b = o_mem o b) /\
    (forall b z, ~ cov v b -> exists m1, exec e p i (omod o b z) s = Some (s', m1) /\ meq m1 (mset m' b z) /\ wrote e i (omod o b z) s = true) /\
    (e_x v = true -> (exists A' u, A = A' ++ [IE u] /\ e_w u = false /\ e_a u = e_a v /\ e_n u = e_n v /\ e_b u = o_mem o) \/
       (noE A /\ ll t = true /\ exists l, rs s = Some l /\
         (l = [(e_a v, e_n v, rd e (o_mem o) (e_a v) (e_n v))] \/
          exists z, e_n v = 2 * z /\ l = [(e_a v, z, rd e (o_mem o) (e_a v) z); (e_a v + z, z, rd e (o_mem o) (e_a v + z) z)]))).
Proof.
  intros W X. destruct i; cbn [wrote] in W; try discriminate W; cbn [exec emit] in *.
  - injection X as <- <-. eexists [], _, []. split; [reflexivity|]. split; [apply noE_noW, noE_nil|]. split; [apply noE_nil|]. split; [reflexivity|].
    split; [reflexivity|]. unfold cov. cbn [e_a e_n e_b e_x]. split; [intros b Hb; now apply wr_outside|]. split; [|intros H; discriminate H].
    intros b z Hb. eexists. split; [reflexivity|]. split; [now apply wr_mset|reflexivity].
  - rewrite W in *. injection X as <- <-. eexists (fulls _), _, (fulls _). split; [reflexivity|]. split; [apply noE_noW, noE_fulls|]. split; [apply noE_fulls|].
    split; [reflexivity|]. split; [reflexivity|]. unfold cov. cbn [e_a e_n e_b e_x]. apply andb_true_iff in W. destruct W as [W1 W2].
    split; [intros b Hb; now apply wr_outside|]. split.
    + intros b z Hb. cbn [omod o_mem o_ok o_junk wrote]. unfold sc_may in *. destruct (rs s) as [[|[[a' n'] v'] []]|]; try discriminate W2.
      rewrite rd_mset, W1, W2 by auto. eexists. split; [reflexivity|]. split; [now apply wr_mset|reflexivity].
    + intros L. right. split; [apply noE_fulls|]. split; [exact L|]. unfold sc_may in W2. destruct (rs s) as [[|[[a' n'] v'] []]|]; try discriminate W2.
      repeat (apply andb_true_iff in W2; let H := fresh in destruct W2 as [W2 H]; apply Z.eqb_eq in H). apply Z.eqb_eq in W2. subst. eexists. split; [reflexivity|]. left. reflexivity.
  - rewrite W in *. injection X as <- <-. eexists (fulls _), _, (fulls _). split; [reflexivity|]. split; [apply noE_noW, noE_fulls|]. split; [apply noE_fulls|].
    split; [reflexivity|]. split; [reflexivity|]. unfold cov. cbn [e_a e_n e_b e_x]. apply andb_true_iff in W. destruct W as [W1 W2].
    unfold scp_may in *. destruct (rs s) as [[|[[a1 n1] v1] [|[[a2 n2] v2] []]]|] eqn:Ers; try discriminate W2.
    repeat (apply andb_true_iff in W2; let H := fresh in destruct W2 as [W2 H]; apply Z.eqb_eq in H). apply Z.eqb_eq in W2. subst.
    split; [intros b Hb; rewrite !wr_outside by lia; reflexivity|]. split.
    + intros b z Hb. cbn [omod o_mem o_ok o_junk wrote]. unfold scp_may. rewrite Ers, !rd_mset, W1, !Z.eqb_refl by lia. eexists. split; [reflexivity|]. split; [|reflexivity].
      intros x. rewrite (wr_meq e _ _ _ _ _ (wr_mset e (o_mem o) b z (rf s rad) sz (rf s r1) ltac:(lia)) x). apply wr_mset. lia.
    + intros L. right. split; [apply noE_fulls|]. split; [exact L|]. eexists. split; [reflexivity|]. right. eexists. split; reflexivity.
  - destruct (wfun (o_ok o) (rd e (o_mem o) (rf s rad) sz) (rf s)) as [w|] eqn:Ew; [|discriminate W]. injection X as <- <-.
    destruct (reads outs) eqn:Er.
    + eexists (fulls _ ++ [IE _]), _, (fulls _). split; [rewrite <- app_assoc; reflexivity|]. split; [|split; [apply noE_fulls|]].
      { apply noW_app; [apply noE_noW, noE_fulls|]. intros v [H|[]]. injection H as <-. reflexivity. }
      split; [reflexivity|]. split; [reflexivity|]. unfold cov. cbn [e_a e_n e_b e_x e_w]. split; [intros b Hb; now apply wr_outside|]. split.
      * intros b z Hb. cbn [omod o_mem o_ok o_junk wrote]. rewrite !rd_mset by auto. rewrite Ew. eexists. split; [reflexivity|]. split; [now apply wr_mset|reflexivity].
      * intros _. left. eexists _, _. split; [reflexivity|]. cbn [e_a e_n e_b e_x e_w]. auto.
    + eexists (fulls _), _, (fulls _). split; [reflexivity|]. split; [apply noE_noW, noE_fulls|]. split; [apply noE_fulls|].
      split; [reflexivity|]. split; [reflexivity|]. unfold cov. cbn [e_a e_n e_b e_x e_w]. split; [intros b Hb; now apply wr_outside|]. split; [|intros H; discriminate H].
      intros b z Hb. cbn [omod o_mem o_ok o_junk wrote]. rewrite !rd_mset by auto. rewrite Ew. eexists. split; [reflexivity|]. split; [now apply wr_mset|reflexivity].
Qed.
(* an instruction that only reads: its read event *)
Lemma emit_read i o s t s' m' : wf_mem (o_mem o) -> wrote e i o s = false -> reads_i i = true -> exec e p i o s = Some (s', m') ->
  exists A u B, emit M e i o s t = A ++ IE u :: B /\ noE A /\ noE B /\ e_w u = false /\ (e_t u = false -> forall b, cov u b -> e_b u b = o_mem o b) /\
    (forall b z, ~ cov u b -> exec e p i (omod o b z) s = Some (s', mset m' b z) /\ wrote e i (omod o b z) s = false).
Proof.
  intros Wm W R X. destruct i; cbn [reads_i] in R; try discriminate R; cbn [exec emit wrote] in *.
  - injection X as <- <-. eexists [], _, []. split; [reflexivity|]. split; [apply noE_nil|]. split; [apply noE_nil|]. split; [reflexivity|]. split; [reflexivity|].
    intros b z Hb. unfold cov in Hb. cbn [e_a e_n] in Hb. cbn [omod o_mem o_ok o_junk]. rewrite rd_mset by auto. split; reflexivity.
  - injection X as <- <-. eexists [], _, []. split; [reflexivity|]. split; [apply noE_nil|]. split; [apply noE_nil|]. split; [reflexivity|]. split; [reflexivity|].
    intros b z Hb. unfold cov in Hb. cbn [e_a e_n] in Hb. cbn [omod o_mem o_ok o_junk]. rewrite rd_mset by auto. split; reflexivity.
  - injection X as <- <-. eexists [], _, []. split; [reflexivity|]. split; [apply noE_nil|]. split; [apply noE_nil|]. split; [reflexivity|]. unfold cov. cbn [e_a e_n e_b e_t]. split.
    + intros Et b Hb. destruct (Z_lt_dec b (rf s rad + sz)) as [L|L]; [apply wr_outside; lia|].
      (* writing back what is there *)
      revert Et. destruct at_; [|destruct (o_ok o); [|discriminate]]; intros _; apply wr_rd_same; auto; try lia; rewrite <- (low_id (8 * sz) (rd e (o_mem o) (rf s rad + sz) sz)) at 2; auto; apply rd_range; auto; lia.
    + intros b z Hb. cbn [omod o_mem o_ok o_junk]. rewrite !rd_mset by lia. split; reflexivity.
  - destruct (wfun (o_ok o) (rd e (o_mem o) (rf s rad) sz) (rf s)) as [w|] eqn:Ew; [discriminate W|]. injection X as <- <-. rewrite R.
    eexists (fulls _), _, (fulls _). split; [reflexivity|]. split; [apply noE_fulls|]. split; [apply noE_fulls|]. split; [reflexivity|]. split; [reflexivity|].
    intros b z Hb. unfold cov in Hb. cbn [e_a e_n] in Hb. cbn [omod o_mem o_ok o_junk]. rewrite rd_mset, Ew by auto. split; reflexivity.
Qed.

(* ---- runs ---- *)
Lemma xrun_split t1 : forall os s x t2 sf, xrun e p os s = Some (t1 ++ x :: t2, sf) ->
  exists os1 o os2 s1 i s2 m2, os = os1 ++ o :: os2 /\ length os1 = length t1 /\ xrun e p os1 s = Some (t1, s1) /\ nth_error p (pc s1) = Some i /\
    exec e p i o s1 = Some (s2, m2) /\ x = step_of e i o s1 m2 /\ xrun e p os2 s2 = Some (t2, sf).
Proof.
  induction t1 as [|y t1 IH]; intros os s x t2 sf H.
  - destruct os as [|o os]; [discriminate H|]. cbn [xrun] in H. destruct (nth_error p (pc s)) as [i|] eqn:Ei; [|discriminate H].
    destruct (exec e p i o s) as [[s' m']|] eqn:Ex; [|discriminate H]. destruct (xrun e p os s') as [[t sf']|] eqn:R; [|discriminate H].
    cbn [app] in H. injection H as <- <- <-. exists [], o, os, s, i, s', m'. auto 10.
  - destruct os as [|o os]; [discriminate H|]. cbn [xrun] in H. destruct (nth_error p (pc s)) as [i|] eqn:Ei; [|discriminate H].
    destruct (exec e p i o s) as [[s' m']|] eqn:Ex; [|discriminate H]. destruct (xrun e p os s') as [[t sf']|] eqn:R; [|discriminate H].
    cbn [app] in H. injection H as <- -> <-. destruct (IH _ _ _ _ _ R) as (os1 & o' & os2 & s1 & i' & s2 & m2 & -> & L & R1 & Ei' & Ex' & Hx & R2).
    exists (o :: os1), o', os2, s1, i', s2, m2. split; [reflexivity|]. split; [cbn; now rewrite L|]. split; [cbn [xrun]; now rewrite Ei, Ex, R1|auto 10].
Qed.
Lemma xrun_join os1 : forall s t1 s1 o os2 i s2 m2 t2 sf, length os1 = length t1 -> xrun e p os1 s = Some (t1, s1) -> nth_error p (pc s1) = Some i ->
  exec e p i o s1 = Some (s2, m2) -> xrun e p os2 s2 = Some (t2, sf) -> xrun e p (os1 ++ o :: os2) s = Some (t1 ++ step_of e i o s1 m2 :: t2, sf).
Proof.
  induction os1 as [|o1 os1 IH]; intros s t1 s1 o os2 i s2 m2 t2 sf L R1 Ei Ex R2.
  - destruct t1; [|discriminate L]. cbn [xrun] in R1. injection R1 as <-. cbn [app xrun]. now rewrite Ei, Ex, R2.
  - destruct t1 as [|y t1]; [discriminate L|]. cbn [xrun app] in *. destruct (nth_error p (pc s)) as [j|]; [|discriminate R1].
    destruct (exec e p j o1 s) as [[s' m']|]; [|discriminate R1]. destruct (xrun e p os1 s') as [[t sf']|] eqn:R; [|discriminate R1]. injection R1 as <- -> ->.
    injection L as L. now rewrite (IH _ _ _ _ _ _ _ _ _ _ L R Ei Ex R2).
Qed.
Lemma irun_noW os : forall s t its sf tr sf', irun M e p os s t = Some (its, sf) -> xrun e p os s = Some (tr, sf') -> Forall no_write tr -> noW its.
Proof.
  induction os as [|o os IH]; intros s t its sf tr sf' H K F; cbn [irun xrun] in *.
  - injection H as <- <-. apply noE_noW, noE_nil.
  - destruct (nth_error p (pc s)) as [i|]; [|injection H as <- <-; apply noE_noW, noE_nil].
    destruct (exec e p i o s) as [[s' m']|]; [|discriminate H]. destruct (irun M e p os s' (t_step M i t)) as [[l sfi]|] eqn:Ri; [|discriminate H].
    destruct (xrun e p os s') as [[l' sfx]|] eqn:Rx; [|discriminate K]. injection H as <- <-. injection K as <- <-. inversion F as [|? ? [F1 _] F2]; subst.
    apply noW_app; [now apply emit_noW|eapply IH; eauto].
Qed.
Lemma irun_noE os : forall s t its sf tr sf', irun M e p os s t = Some (its, sf) -> xrun e p os s = Some (tr, sf') -> Forall no_access tr -> noE its.
Proof.
  induction os as [|o os IH]; intros s t its sf tr sf' H K F; cbn [irun xrun] in *.
  - injection H as <- <-. apply noE_nil.
  - destruct (nth_error p (pc s)) as [i|]; [|injection H as <- <-; apply noE_nil].
    destruct (exec e p i o s) as [[s' m']|]; [|discriminate H]. destruct (irun M e p os s' (t_step M i t)) as [[l sfi]|] eqn:Ri; [|discriminate H].
    destruct (xrun e p os s') as [[l' sfx]|] eqn:Rx; [|discriminate K]. injection H as <- <-. injection K as <- <-. inversion F as [|? ? [[F1 _] F3] F2]; subst.
    apply noE_app; [now apply emit_noE|eapply IH; eauto].
Qed.

(* the reservation is what the most recent read saw *)
Definition lastr (its : list item) (u : ev) : Prop := exists A B, its = A ++ IE u :: B /\ e_w u = false /\ (forall v, In (IE v) B -> e_w v = true).
Definition resv (its : list item) (t : tn) (s : tst) : Prop := ll t = true -> forall l, rs s = Some l ->
  exists u, lastr its u /\ wf_mem (e_b u) /\
    match l with
    | [(a, n, v)] => e_a u = a /\ e_n u = n /\ v = rd e (e_b u) a n
    | [(a1, n1, v1); (a2, n2, v2)] => e_a u = a1 /\ n2 = n1 /\ a2 = a1 + n1 /\ e_n u = 2 * n1 /\ v1 = rd e (e_b u) a1 n1 /\ (0 <= n1 -> v2 = rd e (e_b u) a2 n1)
    | _ => True
    end.
Lemma lastr_app its l u : lastr its u -> (forall v, In (IE v) l -> e_w v = true) -> lastr (its ++ l) u.
Proof.
  intros (A & B & -> & W & H) K. exists A, (B ++ l). rewrite <- app_assoc. split; [reflexivity|]. split; auto.
  intros v I. apply in_app_or in I. destruct I; auto.
Qed.
Lemma lastr_new its u : e_w u = false -> lastr (its ++ [IE u]) u.
Proof. intros W. exists its, []. split; [reflexivity|]. split; auto. Qed.
Lemma resv_keep its l t s t' s' : resv its t s -> (ll t' = true -> ll t = true) -> (rs s' = rs s \/ rs s' = None) -> (forall v, In (IE v) l -> e_w v = true) -> resv (its ++ l) t' s'.
Proof.
  intros R L S K Lt r Rr. destruct S as [S|S]; [|congruence]. rewrite S in Rr. destruct (R (L Lt) r Rr) as (u & U & W & H). exists u. split; [now apply lastr_app|auto].
Qed.
Lemma ll_prop t r b : ll (prop_t M t r b) = ll t.
Proof. unfold prop_t. destruct (m_dep M); reflexivity. Qed.
Ltac keep := eapply resv_keep; [eassumption|rewrite ?ll_prop; auto; fail|cbn [rs]; auto; fail|].
Lemma resv_step its t s i o s' m' : wf_mem (o_mem o) -> resv its t s -> exec e p i o s = Some (s', m') -> resv (its ++ emit M e i o s t) (t_step M i t) s'.
Proof.
  intros Wm R X. destruct i; cbn [exec emit t_step] in *.
  - injection X as <- <-. keep. intros v [].
  - injection X as <- <-. keep. intros v [H|[]]; discriminate H.
  - intros L. discriminate L.
  - injection X as <- <-. keep. intros v [H|[]]. injection H as <-. reflexivity.
  - injection X as <- <-. intros _ l H. cbn [rs] in H. injection H as <-. eexists. split; [apply lastr_new; reflexivity|]. split; [exact Wm|]. auto.
  - injection X as <- <-. intros _ l H. cbn [rs] in H. injection H as <-. eexists. split; [apply lastr_new; reflexivity|]. cbn [e_b e_a e_n]. split; [now apply wf_wr|].
    repeat split.
    + apply rd_ext. intros i Hi. symmetry. apply wr_outside. lia.
    + intros L. rewrite rd_wr_same by auto. symmetry. destruct at_; [apply low_id, rd_range; auto|]. destruct (o_ok o); [apply low_id, rd_range; auto|]. apply low_id, low_range. lia.
  - destruct (o_ok o && sc_may e (o_mem o) (rs s) (rf s rad) sz); injection X as <- <-.
    + keep. intros v I. apply in_app_or in I. destruct I as [I|I]; [exfalso; exact (noE_fulls _ _ I)|].
      destruct I as [I|I]; [injection I as <-; reflexivity|exfalso; exact (noE_fulls _ _ I)].
    + keep. intros v [].
  - destruct (o_ok o && scp_may e (o_mem o) (rs s) (rf s rad) sz); injection X as <- <-.
    + keep. intros v I. apply in_app_or in I. destruct I as [I|I]; [exfalso; exact (noE_fulls _ _ I)|].
      destruct I as [I|I]; [injection I as <-; reflexivity|exfalso; exact (noE_fulls _ _ I)].
    + keep. intros v [].
  - injection X as <- <-. eapply resv_keep; [eassumption|destruct b; [discriminate|auto]|cbn [rs]; destruct b; auto|intros v []].
  - injection X as <- <-. destruct (reads outs); [intros L; discriminate L|]. keep. intros v I.
    apply in_app_or in I. destruct I as [I|I]; [exfalso; exact (noE_fulls _ _ I)|]. apply in_app_or in I. destruct I as [[]|I].
    apply in_app_or in I. destruct I as [I|I]; [|exfalso; exact (noE_fulls _ _ I)]. destruct (wfun _ _ _); [|destruct I]. destruct I as [I|[]]. injection I as <-. reflexivity.
  - injection X as <- <-. keep; intros v [].
  - destruct (f (o_junk o) (map (rf s) srcs)). injection X as <- <-. keep; intros v [].
  - destruct (c (map (rf s) srcs)); [destruct (target p (pc s) l); [|discriminate X]|]; injection X as <- <-; keep; intros v [H|[]]; discriminate H.
  - destruct (target p (pc s) l); [|discriminate X]. injection X as <- <-. keep. intros v [].
Qed.
Lemma irun_split os1 : forall pre s t t1 s1 o os2 i s2 m2 its sf, wf_oracles os1 -> resv pre t s -> length os1 = length t1 -> xrun e p os1 s = Some (t1, s1) ->
  nth_error p (pc s1) = Some i -> exec e p i o s1 = Some (s2, m2) -> irun M e p (os1 ++ o :: os2) s t = Some (its, sf) ->
  exists its1 tn1 its2, irun M e p os1 s t = Some (its1, s1) /\ its = its1 ++ emit M e i o s1 tn1 ++ its2 /\ irun M e p os2 s2 (t_step M i tn1) = Some (its2, sf) /\
    resv (pre ++ its1) tn1 s1.
Proof.
  induction os1 as [|o1 os1 IH]; intros pre s t t1 s1 o os2 i s2 m2 its sf Wo Rv L R1 Ei Ex H.
  - destruct t1; [|discriminate L]. cbn [xrun] in R1. injection R1 as <-. cbn [app irun] in *. rewrite Ei, Ex in H.
    destruct (irun M e p os2 s2 (t_step M i t)) as [[l sf']|] eqn:R; [|discriminate H]. injection H as <- <-. exists [], t, l. rewrite app_nil_r. auto.
  - destruct t1 as [|y t1]; [discriminate L|]. cbn [xrun app irun] in *. destruct (nth_error p (pc s)) as [j|]; [|discriminate R1].
    destruct (exec e p j o1 s) as [[s' m']|] eqn:Ej; [|discriminate R1]. destruct (xrun e p os1 s') as [[tt sf']|] eqn:R; [|discriminate R1]. injection R1 as <- -> ->.
    injection L as L. destruct (irun M e p (os1 ++ o :: os2) s' (t_step M j t)) as [[l sfi]|] eqn:Ri; [|discriminate H]. injection H as <- <-. inversion Wo as [|? ? W1 W2]; subst.
    destruct (IH _ _ _ _ _ _ _ _ _ _ _ _ W2 (resv_step _ _ _ _ _ _ _ W1 Rv Ej) L R Ei Ex Ri) as (its1 & tn1 & its2 & K1 & -> & K2 & K3).
    exists (emit M e j o1 s t ++ its1), tn1, its2. rewrite K1. split; [reflexivity|]. split; [now rewrite <- app_assoc|]. split; [exact K2|]. rewrite app_assoc. exact K3.
Qed.
Lemma rd_eq_cov m m' a n b : wf_mem m -> wf_mem m' -> rd e m a n = rd e m' a n -> a <= b < a + n -> m b = m' b.
Proof. intros W W' H B. replace b with (a + (b - a)) by lia. apply (rd_inj e m m' a n); auto; lia. Qed.
End L.

Section F.
Context {A : Type} (M : mm) (e : endian) (f : fn A) (spec : mem -> mem -> A -> Prop) (At : atomic_fx e f spec).
Notation p := (f_prog f).

Lemma split_same {B} (P Q : B -> Prop) (l1 : list B) : forall x l2 l1' x' l2', l1 ++ x :: l2 = l1' ++ x' :: l2' -> P x -> P x' ->
  Forall (fun y => ~ P y) l2 -> Forall (fun y => ~ P y) l2' -> x = x'.
Proof.
  induction l1 as [|y l1 IH]; intros x l2 [|y' l1'] x' l2' E Hx Hx' F F'; cbn in E.
  - now injection E.
  - injection E as <- E. exfalso. rewrite E in F. apply Forall_app in F. destruct F as [_ F]. inversion F; auto.
  - injection E as -> E. exfalso. rewrite <- E in F'. apply Forall_app in F'. destruct F' as [_ F']. inversion F'; auto.
  - injection E as -> E. eapply IH; eauto.
Qed.
Definition accessing (x : xstep) : Prop := (xrd x || xwr x)%bool = true.
Lemma no_acc_not l : Forall no_access l -> Forall (fun y => ~ accessing y) l.
Proof. intros H. eapply Forall_impl; [|exact H]. intros x [[W _] R] C. unfold accessing in C. rewrite R, W in C. discriminate C. Qed.
Lemma xlin_at t1 x t2 r : xlin spec (t1 ++ x :: t2) r -> accessing x -> Forall no_access t2 -> spec (xm x) (xm' x) r.
Proof.
  intros (u1 & y & u2 & E & _ & F2 & Ay & S) Ax F. rewrite (split_same accessing accessing t1 x t2 u1 y u2 E Ax Ay); auto using no_acc_not.
Qed.

Theorem link os s0 its sf r : wf_oracles os -> pc s0 = O -> f_in f (rf s0) -> irun M e p os s0 tn0 = Some (its, sf) -> at_exit p sf -> f_out f (rf sf) = Some r ->
  exists m m', spec m m' r /\ wf_mem m /\ wf_mem m' /\
  exists I v J, its = I ++ IE v :: J /\ noW I /\ noE J /\
    (forall b z, 0 <= z < 256 -> ~ cov v b -> exists m1 m1', meq m1 (mset m b z) /\ meq m1' (mset m' b z) /\ spec m1 m1' r) /\
    if e_w v then e_b v = m' /\ (forall b, ~ cov v b -> m' b = m b) /\
      (e_x v = true -> exists u, lastr I u /\ e_a u = e_a v /\ e_n u = e_n v /\ forall b, cov u b -> e_b u b = m b)
    else m' = m /\ (e_t v = false -> forall b, cov v b -> e_b v b = m b).
Proof.
  intros Wo P0 Fi H Ex Fo. pose proof (At os s0 Wo P0 Fi) as K. pose proof (irun_run M e p os s0 tn0) as K'. rewrite xrun_run in K'.
  destruct (xrun e p os s0) as [[t sfx]|] eqn:R; [|contradiction K]. destruct K' as (l & K'). rewrite H in K'. injection K' as <- <-.
  destruct K as [K _]. destruct (K Ex) as (r' & Fr & (t1 & x & t2 & -> & F1 & F2 & Ax & S)). rewrite Fo in Fr. injection Fr as <-.
  destruct (xrun_split _ _ _ _ _ _ _ _ R) as (os1 & o & os2 & s1 & i & s2 & m2 & -> & Lo & R1 & Ei & Xi & -> & R2).
  apply Forall_app in Wo. destruct Wo as [Wo1 Wo]. inversion Wo as [|? ? Wm Wo2]; subst. cbn [step_of xm xm' xrd xwr] in *.
  destruct (irun_split M e p os1 [] s0 tn0 t1 s1 o os2 i s2 m2 its sf Wo1) as (its1 & tn1 & its2 & I1 & -> & I2 & Rv); auto.
  { intros D. discriminate D. }
  pose proof (irun_noW _ _ _ _ _ _ _ _ _ _ I1 R1 F1) as N1. pose proof (irun_noE _ _ _ _ _ _ _ _ _ _ I2 R2 F2) as N2. cbn [app] in Rv.
  assert (forall b z m1, 0 <= z < 256 -> exec e p i (omod o b z) s1 = Some (s2, m1) -> wrote e i (omod o b z) s1 = wrote e i o s1 -> spec (mset (o_mem o) b z) m1 r) as Mod.
  { intros b z m1 Hz X1 W1. pose proof (xrun_join e p os1 s0 t1 s1 (omod o b z) os2 i s2 m1 t2 sf Lo R1 Ei X1 R2) as RR.
    assert (wf_oracles (os1 ++ omod o b z :: os2)) as WW. { apply Forall_app. split; [exact Wo1|]. constructor; [now apply wf_mset|exact Wo2]. }
    pose proof (At _ s0 WW P0 Fi) as Q. rewrite RR in Q. destruct Q as [Q _]. destruct (Q Ex) as (r' & Fr & Lx). rewrite Fo in Fr. injection Fr as <-.
    apply xlin_at in Lx; auto. unfold accessing. cbn [step_of xrd xwr]. rewrite W1. exact Ax. }
  assert (wf_mem m2) as Wm2 by (eapply exec_wf; eauto).
  exists (o_mem o), m2. split; [exact S|]. split; [exact Wm|]. split; [exact Wm2|]. destruct (wrote e i o s1) eqn:W.
  - destruct (emit_write M e p i o s1 tn1 s2 m2 W Xi) as (E1 & v & E2 & -> & NA & NB & Ew & Eb & Eo & Em & Exx).
    exists (its1 ++ E1), v, (E2 ++ its2). split; [now rewrite <- !app_assoc|]. split; [now apply noW_app|]. split; [now apply noE_app|]. split.
    { intros b z Hz Hb. destruct (Em b z Hb) as (m1 & X1 & Q1 & Q2). exists (mset (o_mem o) b z), m1. split; [apply meq_refl|]. split; [exact Q1|]. apply Mod; auto. }
    rewrite Ew. split; [exact Eb|]. split; [exact Eo|]. intros Hx. destruct (Exx Hx) as [(E1' & u & -> & Wu & Au & Nu & Bu)|(NE & Lt & l & Rl & Q)].
    + exists u. split; [rewrite app_assoc; now apply lastr_new|]. split; [auto|]. split; [auto|]. intros b _. now rewrite Bu.
    + destruct (Rv Lt l Rl) as (u & Lu & Wu & Q'). exists u. split; [apply lastr_app; [exact Lu|]; intros v0 I; exfalso; exact (NE v0 I)|].
      destruct Q as [->|(z & Ez & ->)].
      * destruct Q' as (Q1 & Q2 & Q3). split; [auto|]. split; [auto|]. unfold cov. rewrite Q1, Q2. intros b Hb. apply (rd_eq_cov e _ _ (e_a v) (e_n v)); auto.
      * destruct Q' as (Q1 & _ & _ & Q2 & Q3 & Q4). split; [auto|]. split; [congruence|]. unfold cov. rewrite Q1, Q2. intros b Hb.
        destruct (Z_lt_dec b (e_a v + z)); [apply (rd_eq_cov e _ _ (e_a v) z); auto; lia|]. apply (rd_eq_cov e _ _ (e_a v + z) z); auto; [|lia]. symmetry. apply Q4. lia.
  - rewrite orb_false_r in Ax. pose proof (wrote_no _ _ _ _ _ _ _ Xi W) as Em2. destruct (emit_read M e p i o s1 tn1 s2 m2 Wm W Ax Xi) as (E1 & u & E2 & -> & NA & NB & Ew & Eb & Em).
    exists (its1 ++ E1), u, (E2 ++ its2). split; [now rewrite <- !app_assoc|]. split; [apply noW_app; auto; now apply noE_noW|]. split; [now apply noE_app|]. split.
    { intros b z Hz Hb. destruct (Em b z Hb) as (X1 & W1). exists (mset (o_mem o) b z), (mset m2 b z). split; [apply meq_refl|]. split; [apply meq_refl|]. apply Mod; [exact Hz|exact X1|congruence]. }
    rewrite Ew. split; [exact Em2|exact Eb].
Qed.
End F.
