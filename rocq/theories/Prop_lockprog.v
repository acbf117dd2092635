(* C42: programs that synchronize by locks.  Whether such a program has races need only be asked of its interleavings, in which taking a lock and
   giving it back happen at once: if no interleaving has one, no multi-core target gives the program any other behaviour. *)
From Verif Require Import SeqCst Prop_order Replay Prop_sc CallLink All_atomic Weak Prop_mp Prop_hb Merge Prop_drf Prop_drfsc Cut Prop_drfprog Prop_lock Prop_locksc Lockdrop.
From Coq Require Import Permutation Sorted.

(* ---- specification ---- *)
(* [P t h]: thread [t] can have done [h] so far, given the results in [h]; [Lk a n]: the [n] bytes at [a] are a lock *)
Record lock_program (T : arch) (Lk : Z -> Z -> Prop) (P : nat -> list act -> Prop) : Prop := {
  lp_pre : forall t h h', P t (h ++ h') -> P t h;
  lp_calls : forall t h c r, P t h -> In (ACall c r) h -> exists a n, Lk a n /\ (lock_call T a n c \/ look_call T a n c \/ unlock_call a n c);
  (* a thread gives back only a lock it has taken and not given back since *)
  lp_held : forall t h a n c r, P t (h ++ [ACall c r]) -> unlock_call a n c ->
    exists h1 c1 r1 h2, h = h1 ++ ACall c1 r1 :: h2 /\ lock_call T a n c1 /\ taken r1 /\ forall c2 r2, In (ACall c2 r2) h2 -> ~ unlock_call a n c2;
  lp_locks : forall a n a' n', Lk a n -> Lk a' n' -> (a, n) = (a', n') \/ disjoint (a, n) (a', n');
  lp_apart : forall t h v a n b, P t h -> In (AMem v) h -> Lk a n -> a <= b < a + n -> ~ covers v b;
  lp_whole : forall t h v, P t h -> In (AMem v) h -> e_t v = false
}.
(* locks are free at first; nothing writes their bytes but calls for them (C20: not the data's, nor another lock's, read-modify-writes of a word) *)
Record own_locks (G : graph) (Lk : Z -> Z -> Prop) : Prop := {
  ol_init : forall a n b, Lk a n -> a <= b < a + n -> g_init G b = 0;
  ol_writes : forall a n w b, Lk a n -> a <= b < a + n -> writes_b G w b -> exists t q c r its, call_at G t q c r its /\ a_write G w t q its /\ op_cell c = (a, n)
}.

(* ---- machinery ---- *)
Lemma spre_call_back l l' : spre l l' -> forall q c r its i, nth_error l' q = Some (Call c r its) -> (i < length its)%nat -> (length (flat (firstn q l')) + i < length (flat l))%nat ->
  nth_error l q = Some (Call c r its) /\ firstn q l = firstn q l'.
Proof.
  induction 1 as [l|s l l' H IH|its its' l]; intros q c r its0 i Hq A Lt.
  - cbn in Lt. lia.
  - destruct q as [|q]; cbn in Hq |- *; [injection Hq as ->; eauto|]. unfold flat in Lt. cbn [firstn map concat] in Lt. rewrite !app_length in Lt. destruct (IH q c r its0 i Hq A) as (B & D); [unfold flat; lia|].
    split; [exact B|]. now rewrite D.
  - unfold flat in Lt. cbn [map concat seg_its] in Lt. rewrite app_nil_r in Lt. destruct q as [|q]; [discriminate Hq|]. exfalso. cbn [firstn map concat seg_its] in Lt. rewrite !app_length in Lt. lia.
Qed.
Lemma mem_split vs : forall x h1 c r h2, map AMem vs ++ x = h1 ++ ACall c r :: h2 -> exists h1', h1 = map AMem vs ++ h1' /\ x = h1' ++ ACall c r :: h2.
Proof.
  induction vs as [|v vs IH]; intros x h1 c r h2 E; [exists h1; auto|]. destruct h1 as [|a h1]; cbn in E; [discriminate E|]. injection E as <- E. destruct (IH _ _ _ _ _ E) as (h1' & -> & ->). exists h1'. auto.
Qed.
Lemma acts_split l : forall h1 c r h2, acts l = h1 ++ ACall c r :: h2 -> exists la its lb, l = la ++ Call c r its :: lb /\ acts la = h1 /\ acts lb = h2.
Proof.
  induction l as [|s l IH]; intros h1 c r h2 E; [destruct h1; discriminate E|]. unfold acts in E. cbn [flat_map] in E. destruct s as [c0 r0 its|its].
  - destruct h1 as [|a h1]; cbn in E.
    + injection E as -> -> <-. exists [], its, l. auto.
    + injection E as <- E2. destruct (IH _ _ _ _ E2) as (la & its' & lb & -> & <- & <-). exists (Call c0 r0 its :: la), its', lb. auto.
  - destruct (mem_split _ _ _ _ _ _ E) as (h1' & -> & E'). destruct (IH _ _ _ _ E') as (la & its' & lb & -> & <- & <-). exists (Code its :: la), its', lb. auto.
Qed.
Lemma acts_app a b : acts (a ++ b) = acts a ++ acts b.
Proof. apply flat_map_app. Qed.

Section C.
Context (G G' : graph) (K : cut G G').
Lemma ct_rseq (Q Q' : eid -> eid -> Prop) w w' : (forall x y, Q x y -> Q' x y) -> rseq G Q w w' -> rseq G' Q' w w'.
Proof.
  intros H. induction 1 as [w|b w r1 w1 w' Fr R Wr Hq _ IH]; [constructor|]. apply (rs_rmw G' Q' b w r1 w1); [now apply (ct_rf _ _ K) in Fr|now apply (ct_rmw _ _ K)|now apply (ct_writes _ _ K) in Wr|auto|exact IH].
Qed.
Lemma ct_lib x y : lib_rmw G x y -> lib_rmw G' x y.
Proof.
  intros (t & q & c & v & its & C & St & Hr & Hw). exists t, q, c, v, its. split; [now apply (ct_call _ _ K)|]. split; [exact St|]. split; [exact (ct_read _ _ K _ _ _ _ _ _ C Hr)|exact (ct_write _ _ K _ _ _ _ _ _ C Hw)].
Qed.
Lemma ct_synchronizes w r : synchronizes G w r -> synchronizes G' w r.
Proof.
  intros [(b & w' & S & Fr)|(b & w' & S & Fr & A)]; [left|right]; exists b, w'; apply (ct_rf _ _ K) in Fr; destruct Fr as [Fr _]; (split; [|auto]); [exact (ct_rseq _ _ _ _ ct_lib S)|exact (ct_rseq _ _ _ _ (fun _ _ H => H) S)].
Qed.
Lemma ct_syncs p1 p2 : syncs G p1 p2 -> syncs G' p1 p2.
Proof.
  intros (c1 & r1 & its1 & c2 & r2 & its2 & w & r & C1 & Rl & Hw & C2 & St & Aq & Hr & S). exists c1, r1, its1, c2, r2, its2, w, r.
  split; [now apply (ct_call _ _ K)|]. split; [exact Rl|]. split; [exact (ct_awrite _ _ K _ _ _ _ _ _ C1 Hw)|]. split; [now apply (ct_call _ _ K)|]. split; [exact St|]. split; [exact Aq|]. split; [exact (ct_read _ _ K _ _ _ _ _ _ C2 Hr)|now apply ct_synchronizes].
Qed.
Lemma ct_rch p1 p2 : reaches G p1 p2 -> reaches G' p1 p2.
Proof. induction 1 as [p1 p2 H|p1 t q q' p2 H L R IH]; [apply re_one; now apply ct_syncs|exact (re_more G' p1 t q q' p2 (ct_syncs _ _ H) L IH)]. Qed.
Lemma syncs_calls (H : graph) p1 p2 : syncs H p1 p2 -> (exists c r its, call_at H (fst p1) (snd p1) c r its) /\ (exists c r its, call_at H (fst p2) (snd p2) c r its).
Proof. intros (c1 & r1 & its1 & c2 & r2 & its2 & w & r & C1 & _ & _ & C2 & _). eauto 10. Qed.
Lemma rch_calls (H : graph) p1 p2 : reaches H p1 p2 -> (exists c r its, call_at H (fst p1) (snd p1) c r its) /\ (exists c r its, call_at H (fst p2) (snd p2) c r its).
Proof. induction 1 as [p1 p2 Q|p1 t q q' p2 Q L R IH]; [now apply syncs_calls|]. split; [apply (syncs_calls _ _ _ Q)|apply IH]. Qed.
Lemma ct_happens d e : happens_before G d e -> happens_before G' d e.
Proof.
  intros [P|(t1 & q1 & t2 & q2 & B & R & A)]; [now left|right]. exists t1, q1, t2, q2. destruct (rch_calls _ _ _ R) as [(c1 & r1 & i1 & C1) (c2 & r2 & i2 & C2)]. cbn [fst snd] in *.
  split; [now apply (ct_before _ _ K _ _ _ _ _ _ C1)|]. split; [now apply ct_rch|now apply (ct_after _ _ K _ _ _ _ _ _ C2)].
Qed.
Lemma ct_own Lk : own_locks G' Lk -> own_locks G Lk.
Proof.
  intros O. constructor.
  - intros a n b Hk Hb. rewrite (ct_init _ _ K). exact (ol_init _ _ O a n b Hk Hb).
  - intros a n w b Hk Hb Wr. apply (ct_writes _ _ K) in Wr. destruct Wr as [Wr Kw]. destruct (ol_writes _ _ O a n w b Hk Hb Wr) as (t & q & c & r & its & C & (Et & i & Ei & Wi) & Ec). subst t.
    assert (i < length its)%nat as Li by (destruct Wi as (v & A & _); exact (at_lt _ _ _ A)). unfold kept, items in Kw. rewrite Ei in Kw. destruct (spre_call_back _ _ (ct_thr _ _ K (fst w)) q c r its i C Li Kw) as [C' Ef].
    exists (fst w), q, c, r, its. split; [exact C'|]. split; [|exact Ec]. split; [reflexivity|]. exists i. split; [|exact Wi]. unfold base in *. now rewrite Ef.
Qed.
End C.

(* a program with locks, in an execution *)
Section Q.
Context (T : arch) (Lk : Z -> Z -> Prop) (P : nat -> list act -> Prop) (Pg : lock_program T Lk P).
Lemma held_holds (G : graph) t q a n c r its : P t (acts (g_thr G t)) -> call_at G t q c r its -> unlock_call a n c -> exists ql, holds T G a n t ql q.
Proof.
  intros HP C U. destruct (nth_error_split _ _ C) as (l1 & l2 & E & El). rewrite E, acts_app in HP. change (acts (Call c r its :: l2)) with ([ACall c r] ++ acts l2) in HP. rewrite app_assoc in HP. apply (lp_pre _ _ _ Pg) in HP.
  destruct (lp_held _ _ _ Pg _ _ _ _ _ _ HP U) as (h1 & c1 & r1 & h2 & Eh & Lc & Tk & Nu). destruct (acts_split _ _ _ _ _ Eh) as (la & its1 & lb & -> & _ & <-). rewrite app_length in El. cbn [length] in El.
  exists (length la). split; [lia|]. split; [|split; [exists c, r, its; auto|]].
  - exists c1, r1, its1. split; [|auto]. unfold call_at. rewrite E, <- app_assoc, nth_error_app2, Nat.sub_diag by lia. reflexivity.
  - intros q' c2 r2 its2 Hq C2. apply (Nu c2 r2). unfold call_at in C2. rewrite E, nth_error_app1 in C2 by (rewrite app_length; cbn [length]; lia). rewrite nth_error_app2 in C2 by lia. replace (q' - length la)%nat with (S (q' - length la - 1)) in C2 by lia. cbn [nth_error] in C2.
    unfold acts. apply in_flat_map. exists (Call c2 r2 its2). split; [exact (nth_error_In _ _ C2)|now left].
Qed.
Lemma prog_locks (G : graph) : (forall t, P t (acts (g_thr G t))) -> own_locks G Lk -> (exists N, forall t, (N <= t)%nat -> g_thr G t = []) -> lock_system T G Lk.
Proof.
  intros HP O Fin. assert (forall a n c, lock_call T a n c \/ look_call T a n c \/ unlock_call a n c -> op_cell c = (a, n)) as Ec.
  { intros a n c [[(o & -> & _)|(s & f & [->| ->] & _)]|[(o & -> & _)|(o & -> & _)]]; reflexivity. }
  constructor.
  - intros t q c r its C. destruct (lp_calls _ _ _ Pg t _ c r (HP t) (call_in _ _ _ _ _ _ C)) as (a & n & Hk & K). now rewrite (Ec _ _ _ K).
  - intros a n Hk. constructor; [exact (fun b => ol_init _ _ O a n b Hk)|exact (fun w b => ol_writes _ _ O a n w b Hk)| |exact Fin].
    intros t q c r its C E. destruct (lp_calls _ _ _ Pg t _ c r (HP t) (call_in _ _ _ _ _ _ C)) as (a' & n' & Hk' & K). pose proof (Ec _ _ _ K) as E'. rewrite E in E'. injection E' as <- <-.
    destruct K as [K|[K|K]]; auto. right. right. split; [exact K|exact (held_holds G t q a n c r its (HP t) C K)].
  - exact (lp_locks _ _ _ Pg).
Qed.
Lemma prog_lfree (G : graph) : (forall t, P t (acts (g_thr G t))) -> (exists N, forall t, (N <= t)%nat -> g_thr G t = []) ->
  (forall x y, conflict G x y -> fst x <> fst y -> happens_before G x y \/ happens_before G y x) -> race_free G (happens_before G).
Proof.
  intros HP Fin H. constructor; [exact H| | |exact Fin].
  - intros x v b t q c r its Px Cv C I. destruct (lp_calls _ _ _ Pg t _ c r (HP t) (call_in _ _ _ _ _ _ C)) as (a & n & Hk & K).
    assert (op_cell c = (a, n)) as Ec by (destruct K as [[(o & -> & _)|(s & f & [->| ->] & _)]|[(o & -> & _)|(o & -> & _)]]; reflexivity). unfold in_cell in I. rewrite Ec in I.
    exact (lp_apart _ _ _ Pg _ _ _ a n b (HP (fst x)) (plain_in _ _ _ Px) Hk I Cv).
  - intros x v Px. exact (lp_whole _ _ _ Pg _ _ _ (HP (fst x)) (plain_in _ _ _ Px)).
Qed.
Context (G : graph) (f : eid -> nat) (Ie : t_ie T = None) (W : t_wf T) (RF : sc_race_free (lock_step (t_e T)) P (g_init G)) (X : execution T G)
  (HP : forall t, P t (acts (g_thr G t))) (N : nat) (HN : forall t, (N <= t)%nat -> g_thr G t = []) (It : in_time G f) (Own : own_locks G Lk).
Notation up n := (upto G f n).
Lemma lup_P n t : P t (acts (g_thr (up n) t)).
Proof. destruct (spre_acts _ _ (ct_thr _ _ (upto_all T G f X It n) t)) as (h & E). apply (lp_pre _ _ _ Pg t _ h). rewrite <- E. apply HP. Qed.
Lemma lup_fin n : exists N, forall t, (N <= t)%nat -> g_thr (up n) t = [].
Proof. exists N. intros t H. cbn. now rewrite (HN t H). Qed.
Lemma lordered n : forall x y, conflict (up n) x y -> fst x <> fst y -> happens_before (up n) x y \/ happens_before (up n) y x.
Proof.
  induction n as [|n IH]; intros x y (v & u & b & Px & Py & Cx & Cy & Ww) Ne; [destruct (plain_f T G f X It _ _ _ Px) as [_ Q]; lia|].
  assert (forall x y v u, plain_at (up (S n)) x v -> plain_at (up (S n)) y u -> covers v b -> covers u b -> e_w v = true \/ e_w u = true -> fst x <> fst y -> f x < n -> f y = n -> happens_before (up (S n)) x y)%nat as K.
  { clear x y v u Px Py Cx Cy Ww Ne. intros x y v u Px Py Cx Cy Ww Ne Fx Fy. destruct (plain_f T G f X It _ _ _ Px) as [Qx _], (plain_f T G f X It _ _ _ Py) as [Qy _]. pose proof (plain_upto T G f X It n x v Qx Fx) as Px'.
    pose proof (prog_lfree (up n) (lup_P n) (lup_fin n) IH) as Fr. pose proof (prog_locks (up n) (lup_P n) (ct_own _ _ (upto_all T G f X It n) Lk Own) (lup_fin n)) as Ls. destruct (plain_next G f It n y u Qy Fy) as [Ey (h & Eh)].
    destruct (lock_drop T (up n) Lk Ie W (upto_exec T G f X It n) Ls Fr x v (fst y) Px' (not_eq_sym Ne)) as [(t1 & q1 & q2 & B & R)|(H & mf & Mg & He & (h' & Hd) & Hp)].
    - right. exists t1, q1, (fst y), q2. pose proof (upto_more T G f X It n (S n) ltac:(lia)) as Ct. destruct (rch_calls _ _ _ R) as [(c1 & r1 & i1 & C1) (c2 & r2 & i2 & C2)]. cbn [fst snd] in *.
      split; [now apply (ct_before _ _ Ct _ _ _ _ _ _ C1)|]. split; [exact (ct_rch _ _ Ct _ _ R)|]. split; [reflexivity|]. destruct (ct_base _ _ Ct _ _ _ _ _ C2) as [_ <-]. rewrite Ey, <- (upto_len G f It).
      destruct (seg_split (up n) _ _ _ C2) as (pre & post & Ei & Lp & Lb). rewrite Lb, Ei, !app_length. lia.
    - exfalso. assert (forall t, P t (H t)) as HH by (intros t; destruct (Hp t) as (h0 & E0); apply (lp_pre _ _ _ Pg t _ h0); rewrite <- E0; apply lup_P).
      destruct (RF H mf Mg HH (fst x) (fst y) v u b Ne) as [Q1 Q2]; auto.
      + apply (lp_pre _ _ _ Pg _ _ h'). rewrite <- app_assoc. cbn [app]. rewrite <- Hd. apply lup_P.
      + apply (lp_pre _ _ _ Pg _ _ h). rewrite <- app_assoc, He. cbn [app]. rewrite <- Eh. apply HP.
      + destruct Ww; congruence. }
  destruct (plain_f T G f X It _ _ _ Px) as [Qx Fx], (plain_f T G f X It _ _ _ Py) as [Qy Fy]. destruct (Nat.eq_dec (f x) n) as [Ex|Nx], (Nat.eq_dec (f y) n) as [Ey|Ny].
  - exfalso. destruct (it_step G f It x y (plain_ex G _ _ Qx) (plain_ex G _ _ Qy)) as [->|(t & q & Z & _)]; [congruence|now apply Ne|exact (plain_call G _ _ _ _ Qx Z)].
  - right. apply (K y x u v); auto; [tauto|lia].
  - left. apply (K x y v u); auto; lia.
  - destruct (IH x y) as [Q|Q]; [|exact Ne|left|right; exact (ct_happens _ _ (upto_more T G f X It n (S n) ltac:(lia)) _ _ Q)]; [|exact (ct_happens _ _ (upto_more T G f X It n (S n) ltac:(lia)) _ _ Q)].
    exists v, u, b. split; [apply (plain_upto T G f X It); auto; lia|]. split; [apply (plain_upto T G f X It); auto; lia|]. auto.
Qed.
Lemma lprog_race_free : race_free G (happens_before G).
Proof.
  apply prog_lfree; [exact HP|now exists N|]. intros x y (v & u & b & Px & Py & C) Ne. set (n := S (Nat.max (f x) (f y))). destruct (lordered n x y) as [Q|Q]; auto; [|left|right]; try exact (ct_happens _ _ (upto_all T G f X It n) _ _ Q).
  exists v, u, b. split; [apply (plain_upto T G f X It); auto; unfold n; lia|]. split; [apply (plain_upto T G f X It); auto; unfold n; lia|exact C].
Qed.
End Q.

(* ---- theorems ---- *)
Theorem C42_program_no_races T Lk P G f : t_ie T = None -> t_wf T -> lock_program T Lk P -> sc_race_free (lock_step (t_e T)) P (g_init G) -> own_locks G Lk ->
  execution T G -> (forall t, P t (acts (g_thr G t))) -> (exists N, forall t, (N <= t)%nat -> g_thr G t = []) -> in_time G f -> race_free G (happens_before G).
Proof. intros Ie W Pg RF O X HP (N & HN) It. exact (lprog_race_free T Lk P Pg G f Ie W RF X HP N HN It O). Qed.
Theorem C42_program T Lk P G f : t_ie T = None -> t_wf T -> lock_program T Lk P -> sc_race_free (lock_step (t_e T)) P (g_init G) -> own_locks G Lk ->
  execution T G -> (forall t, P t (acts (g_thr G t))) -> (exists N, forall t, (N <= t)%nat -> g_thr G t = []) -> in_time G f ->
  exists mf, merged (lock_step (t_e T)) (fun t => acts (g_thr G t)) (g_init G) mf /\
    forall b, (forall t q c r its, call_at G t q c r its -> ~ in_cell c b) ->
      ((forall w, ~ writes_b G w b) -> mf b = g_init G b) /\
      (forall w v, ev_at G w v -> e_w v = true -> covers v b -> (forall w', ~ g_co G b w w') -> mf b = e_b v b).
Proof.
  intros Ie W Pg RF O X HP Fin It. exact (C42_locks T G Lk Ie W X (prog_locks T Lk P Pg G HP O Fin) (C42_program_no_races T Lk P G f Ie W Pg RF O X HP Fin It)).
Qed.
