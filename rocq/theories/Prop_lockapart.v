(* C42 for locks that do not share an aligned word: what [own_locks] asks of executions then follows from the program (C43). *)
From Verif Require Import SeqCst Replay Merge Prop_drf Prop_drfsc Prop_drfprog Prop_hb Prop_lock Prop_locksc Prop_lockprog Prop_foot.

(* ---- specification ---- *)
(* the bytes a swap or compare_exchange on the cell may touch: those of the cell, at least the aligned 4 bytes around it *)
Definition room (a n b : Z) : Prop := if n <? 4 then a - a mod 4 <= b < a - a mod 4 + 4 else a <= b < a + n.
Record locks_apart (Lk : Z -> Z -> Prop) : Prop := {
  la_size : forall a n, Lk a n -> an_integer n;
  la_apart : forall a n a' n' b, Lk a n -> Lk a' n' -> room a n b -> room a' n' b -> (a, n) = (a', n')
}.

(* ---- machinery ---- *)
Lemma aligned_room a n b : an_integer n -> a mod n = 0 -> a <= b < a + n -> room a n b.
Proof. intros [->|[->|[->|[->| ->]]]] A B; unfold room; cbn [Z.ltb Z.compare Pos.compare Pos.compare_cont]; try lia; Z.div_mod_to_equations; lia. Qed.
Lemma op_aligned T c its : accessed T c its -> fst (op_cell c) mod snd (op_cell c) = 0.
Proof. intros [f os s0 its' sf Ha _ _ _ _]. destruct c; cbn in *; unfold cell in Ha; tauto. Qed.
Lemma acc_room T c its v b : t_wf T -> an_integer (snd (op_cell c)) -> accessed T c its -> In (IE v) its -> covers v b -> room (fst (op_cell c)) (snd (op_cell c)) b.
Proof.
  intros W N A Hv Cv. pose proof (op_aligned T c its A) as Al. pose proof (C43_own_cell T c its v W N A Hv) as K. destruct (op_cell c) as [a n]. cbn [fst snd] in *. destruct K as [K|(_ & L & K)].
  - apply aligned_room; auto.
  - unfold room. apply Z.ltb_lt in L. rewrite L. apply K, Cv.
Qed.
(* a byte of a lock that some call's access covers *)
Lemma lock_room T Lk P G a n b : lock_program T Lk P -> locks_apart Lk -> (forall t, P t (acts (g_thr G t))) -> t_wf T -> execution T G -> Lk a n -> a mod n = 0 -> a <= b < a + n ->
  forall t q c r its i v, call_at G t q c r its -> at_ its i v -> covers v b -> op_cell c = (a, n).
Proof.
  intros Pg La HP W X L Al Hb t q c r its i v C At Cv. destruct (lp_calls _ _ _ Pg t _ c r (HP t) (call_in _ _ _ _ _ _ C)) as (a' & n' & L' & K). assert (op_cell c = (a', n')) as Ec.
  { destruct K as [[(o & -> & _)|(s & fo & [-> | ->] & _)]|[(o & -> & _)|(o & -> & _)]]; reflexivity. }
  rewrite Ec. symmetry. pose proof (call_accessed _ _ _ _ (ex_calls _ _ X _ _ _ _ _ C)) as Ac. apply (la_apart _ La a n a' n' b L L').
  - apply aligned_room; auto. exact (la_size _ La _ _ L).
  - pose proof (acc_room T c its v b W) as R. rewrite Ec in R. cbn [fst snd] in R. apply R; auto; [exact (la_size _ La _ _ L')|exact (nth_error_In _ _ At)].
Qed.

(* ---- theorems ---- *)
Theorem C42_own_locks T Lk P G : t_wf T -> lock_program T Lk P -> locks_apart Lk -> (forall a n, Lk a n -> a mod n = 0) ->
  execution T G -> (forall t, P t (acts (g_thr G t))) -> (forall a n b, Lk a n -> a <= b < a + n -> g_init G b = 0) -> own_locks G Lk.
Proof.
  intros W Pg La Al X HP Z0. constructor; [exact Z0|]. intros a n [t k] b L Hb (v & A & Wv & Cv). unfold ev_at, at_, items in A. cbn [fst snd] in A.
  destruct (flat_at _ _ _ A) as (q & s & j & Hq & Hj & ->). destruct s as [c r its|its]; cbn [seg_its] in Hj.
  - exists t, q, c, r, its. split; [exact Hq|]. split; [split; [reflexivity|]; exists j; split; [reflexivity|exists v; auto]|]. exact (lock_room T Lk P G a n b Pg La HP W X L (Al _ _ L) Hb t q c r its j v Hq Hj Cv).
  - exfalso. refine (lp_apart _ _ _ Pg t _ v a n b (HP t) _ L Hb Cv). apply (code_in G t q its v Hq). exact (nth_error_In _ _ Hj).
Qed.
(* races are asked about, and behaviours promised, in terms of the program and of the initial memory alone *)
Theorem C42_program_apart T Lk P G f : t_ie T = None -> t_wf T -> lock_program T Lk P -> locks_apart Lk -> (forall a n, Lk a n -> a mod n = 0) ->
  (forall a n b, Lk a n -> a <= b < a + n -> g_init G b = 0) -> sc_race_free (lock_step (t_e T)) P (g_init G) ->
  execution T G -> (forall t, P t (acts (g_thr G t))) -> (exists N, forall t, (N <= t)%nat -> g_thr G t = []) -> in_time G f ->
  race_free G (happens_before G) /\
  exists mf, merged (lock_step (t_e T)) (fun t => acts (g_thr G t)) (g_init G) mf /\
    forall b, (forall t q c r its, call_at G t q c r its -> ~ in_cell c b) ->
      ((forall w, ~ writes_b G w b) -> mf b = g_init G b) /\
      (forall w v, ev_at G w v -> e_w v = true -> covers v b -> (forall w', ~ g_co G b w w') -> mf b = e_b v b).
Proof.
  intros Ie W Pg La Al Z0 RF X HP Fin It. pose proof (C42_own_locks T Lk P G W Pg La Al X HP Z0) as O. split; [exact (C42_program_no_races T Lk P G f Ie W Pg RF O X HP Fin It)|].
  exact (C42_program T Lk P G f Ie W Pg RF O X HP Fin It).
Qed.
