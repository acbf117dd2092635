(* C28 in terms of the API alone: message passing. *)
From Verif Require Import SeqCst Prop_order Replay Prop_sc CallLink All_atomic.
From Coq Require Import Permutation.

(* the value of the cell that a call other than store reports *)
Definition reported (r : rval) : option Z := match r with RVal v | RCas v _ => Some v | RUnit => None end.
(* nobody writes to the cell but the [q]-th piece of thread [t] *)
Definition only_writer (G : graph) (cell : Z * Z) (t q : nat) : Prop :=
  forall w b, fst cell <= b < fst cell + snd cell -> writes_b G w b -> fst w = t /\ (base G t q <= snd w < base G t (S q))%nat.

Section P.
Context (T : arch) (G : graph) (Ie : t_ie T = None) (W : t_wf T) (X : execution T G).
Notation Sa := (ex_sane T G X).
Lemma call_read t q c r its : call_at G t q c r its -> is_store c = false ->
  exists x u, the_read G x t q its /\ ev_at G x u /\ e_w u = false /\ solid G x /\ covers_cell u c /\
    reported r = Some (rd (t_e T) (e_b u) (fst (op_cell c)) (snd (op_cell c))).
Proof.
  intros C N. pose proof (ex_calls T G X _ _ _ _ _ C) as Ci. destruct (call_fact T c its r (smp_ie T Ie) W Ci) as (m & m' & Wm & Wm' & [D A]).
  assert (reported r = Some (rd (t_e T) m (fst (op_cell c)) (snd (op_cell c)))) as Rr.
  { unfold op_done in D. destruct c, r; try discriminate N; cbn [op_spec op_cell fst snd reported] in *; try contradiction D.
    - now destruct D as [-> _].
    - now destruct D as [-> _].
    - destruct (cas_upper_bits T n); destruct D as [D _]; cbn [fst] in D; now subst v.
    - destruct D as [D _]; cbn [fst] in D; now subst v. }
  assert (exists i u, op_read its i /\ at_ its i u /\ covers_cell u c /\ forall b, cov u b -> e_b u b = m b) as (i & u & Ri & Au & Cu & Eu).
  { destruct A as [(_ & _ & _ & A)|(k & v & Ow & Av & _ & Cv & _ & _ & A)]; [exact A|]. rewrite N in A. destruct A as (i & u & Rw & Au & Ea & En & Eb).
    exists i, u. split; [left; exists k; split; [exact Ow|destruct Rw as (? & _ & _ & _ & Rw); exact Rw]|]. split; [exact Au|]. split; [unfold covers_cell in *; rewrite Ea, En; exact Cv|exact Eb]. }
  assert (e_w u = false) as Wu.
  { assert (exists v, at_ its i v /\ e_w v = false) as (v & A' & Wv) by (destruct Ri as [(k & _ & _ & R & _)|(_ & _ & R & _)]; exact R). unfold at_ in *. congruence. }
  exists (t, (base G t q + i)%nat), u. assert (the_read G (t, (base G t q + i)%nat) t q its) as Tr by (split; [reflexivity|exists i; auto]).
  split; [exact Tr|]. split; [refine (lift_ev G _ _ _ _ _ _ _ _ C _ _ Au); reflexivity|]. split; [exact Wu|].
  split; [exact (r_solid T G X _ _ _ _ _ C N _ Tr)|]. split; [exact Cu|]. rewrite Rr. f_equal. apply rd_ext. intros j Hj. symmetry. apply Eu. unfold covers_cell, cov in *. lia.
Qed.
Lemma store_write t q n o a v r its : call_at G t q (OStore n o a v) r its ->
  exists x u, the_write G x t q its /\ ev_at G x u /\ e_w u = true /\ e_a u = a /\ e_n u = n /\ rd (t_e T) (e_b u) a n = v /\
    forall y, a_write G y t q its -> y = x.
Proof.
  intros C. pose proof (ex_calls T G X _ _ _ _ _ C) as Ci. assert (0 < n /\ val n v) as [Pn Vn].
  { destruct Ci as [f os s0 its' sf r' Ar _ I _ _ _ _ _ _]. split; [exact (impl_pos _ _ _ I)|]. apply Ar. }
  destruct (call_fact T _ its r (smp_ie T Ie) W Ci) as (m & m' & Wm & Wm' & [D [(F & _)|(k & u & Ow & Au & Un & Cu & Eb & _ & En)]]); [discriminate F|].
  cbn [is_store op_cell fst snd] in *. exists (t, (base G t q + k)%nat), u. split; [split; [reflexivity|exists k; auto]|]. split; [refine (lift_ev G _ _ _ _ _ _ _ _ C _ _ Au); reflexivity|].
  split. { destruct Ow as (_ & (z & Az & Wz) & _). unfold at_ in *. congruence. }
  unfold covers_cell in Cu. cbn [op_cell fst snd] in Cu. split; [lia|]. split; [exact En|]. split.
  - unfold op_done in D. destruct r; cbn [op_spec] in D; try contradiction D. rewrite Eb. rewrite (rd_meq _ _ _ _ _ D). rewrite rd_wr_any by lia. now apply low_id.
  - intros [t' s'] (F & i & E & Wi). cbn [fst snd] in *. rewrite (Un i Wi) in E. congruence.
Qed.
(* the write of a call, named by its position *)
Lemma in_call t q c r its x v : call_at G t q c r its -> ev_at G x v -> e_w v = true -> fst x = t -> (base G t q <= snd x < base G t (S q))%nat -> a_write G x t q its.
Proof.
  intros C A Wv F L. split; [exact F|]. exists (snd x - base G t q)%nat. split; [lia|]. exists v. split; [|exact Wv].
  destruct (seg_split _ _ _ _ C) as (pre & post & E & Lp & B). cbn [seg_its] in *. unfold ev_at in A. rewrite F, E in A. unfold at_ in *.
  rewrite <- A. symmetry. rewrite <- (nth_ctx' pre its post (snd x - base G t q)) by lia. f_equal. lia.
Qed.

(* One thread writes [d], in whatever way, and later publishes by a releasing call on the flag, which nobody else writes.  Another thread makes
   an acquiring call on the flag that reports something other than the initial value, and later reads, by the access [e], a byte that [d] wrote
   last.  Then [e] reads what [d] wrote. *)
Theorem C28_flag t1 q1 c1 r1 its1 t2 q2 c2 r2 its2 x d e u v b :
  call_at G t1 q1 c1 r1 its1 -> releases (weff c1) = true -> only_writer G (op_cell c1) t1 q1 ->
  call_at G t2 q2 c2 r2 its2 -> is_store c2 = false -> acquires (eff c2 r2) = true -> op_cell c2 = op_cell c1 ->
  reported r2 = Some x -> x <> rd (t_e T) (g_init G) (fst (op_cell c1)) (snd (op_cell c1)) ->
  before G d t1 q1 -> after G e t2 q2 -> solid G e ->
  ev_at G d u -> e_w u = true -> covers u b -> ev_at G e v -> e_w v = false -> covers v b -> (forall w, ~ g_co G b d w) ->
  e_b v b = e_b u b.
Proof.
  intros C1 Rl Ow C2 N Aq Ec Rr Nx Bd Ae Se Du Wu Cu Ev Wv Cv Last.
  destruct (call_read _ _ _ _ _ C2 N) as (r & z & Hr & Hz & Wz & _ & Cz & Ez). rewrite Rr in Ez. injection Ez as ->. rewrite Ec in *.
  set (a := fst (op_cell c1)) in *. set (n := snd (op_cell c1)) in *.
  assert (exists k, a <= k < a + n /\ e_b z k <> g_init G k) as (k & Hk & Nk).
  { assert (forall j, (exists k, a <= k < a + Z.of_nat j /\ e_b z k <> g_init G k) \/ forall k, a <= k < a + Z.of_nat j -> e_b z k = g_init G k) as K.
    { induction j as [|j [IH|IH]]; [right; intros; lia| |]. { left. destruct IH as (k & H1 & H2). exists k. split; [lia|exact H2]. }
      destruct (Z.eq_dec (e_b z (a + Z.of_nat j)) (g_init G (a + Z.of_nat j))) as [E|E]; [right|left; exists (a + Z.of_nat j); split; [lia|exact E]].
      intros k Hk. destruct (Z.eq_dec k (a + Z.of_nat j)) as [->|]; [exact E|apply IH; lia]. }
    destruct (Z_le_gt_dec n 0) as [Q|Q]; [exfalso; apply Nx; apply rd_ext; intros; lia|].
    destruct (K (Z.to_nat n)) as [K'|K']; [destruct K' as (k & H1 & H2); exists k; split; [lia|exact H2]|]. exfalso. apply Nx. apply rd_ext. intros i Hi. apply K'. lia. }
  assert (covers z k) as Ck by (unfold covers, covers_cell in *; rewrite Ec in Cz; fold a n in Cz; lia).
  destruct (rf_some _ Sa k r z Hz Wz Ck) as [(w & F)|[_ E]]; [|congruence].
  destruct (rf_ends T G X _ _ _ F) as [Ww _]. destruct (Ow w k Hk Ww) as [Fw Lw]. destruct Ww as (wv & Aw & Ww & _).
  apply (C28_message T G X t1 q1 c1 r1 its1 t2 q2 c2 r2 its2 w r d e b u v); auto.
  split; [exact C1|]. split; [exact Rl|]. split; [exact (in_call _ _ _ _ _ _ _ C1 Aw Ww Fw Lw)|]. split; [exact Bd|]. split; [exact C2|]. split; [exact N|]. split; [exact Aq|].
  split; [exact Hr|]. split; [exact Ae|]. split; [exact (sync_rf G k w r F)|]. split; [exists u; auto|exact Se].
Qed.
End P.

(* Message passing, calls only: thread [t1] stores [x] to the data cell by a store of any ordering and later makes a releasing call on the flag;
   thread [t2] makes an acquiring call on the flag that reports another value than the initial one and later reads the data cell by any call of
   any ordering.  It reports [x]. *)
Theorem C28_message_passing T G t1 q0 n o a x r0 i0 q1 c1 r1 i1 t2 q2 c2 r2 i2 q3 c3 r3 i3 y :
  t_ie T = None -> t_wf T -> execution T G ->
  call_at G t1 q0 (OStore n o a x) r0 i0 -> (q0 < q1)%nat -> call_at G t1 q1 c1 r1 i1 -> releases (weff c1) = true ->
  call_at G t2 q2 c2 r2 i2 -> is_store c2 = false -> acquires (eff c2 r2) = true -> op_cell c2 = op_cell c1 ->
  (q2 < q3)%nat -> call_at G t2 q3 c3 r3 i3 -> is_store c3 = false -> op_cell c3 = (a, n) ->
  only_writer G (a, n) t1 q0 -> only_writer G (op_cell c1) t1 q1 ->
  reported r2 = Some y -> y <> rd (t_e T) (g_init G) (fst (op_cell c1)) (snd (op_cell c1)) ->
  reported r3 = Some x.
Proof.
  intros Ie W X C0 L01 C1 Rl C2 N2 Aq E2 L23 C3 N3 E3 O0 O1 R2 Ny.
  destruct (store_write T G Ie W X _ _ _ _ _ _ _ _ C0) as (d & u & Td & Du & Wu & Ea & En & Er & Un).
  destruct (call_read T G Ie W X _ _ _ _ _ C3 N3) as (e & v & Te & Ev & Wv & Se & Cv & Rr). rewrite Rr. f_equal. rewrite E3 in *. unfold covers_cell in Cv. rewrite E3 in Cv. cbn [fst snd] in *. rewrite <- Er.
  apply rd_ext. intros i Hi. refine (C28_flag T G Ie W X t1 q1 c1 r1 i1 t2 q2 c2 r2 i2 y d e u v (a + i) C1 Rl O1 C2 N2 Aq E2 R2 Ny _ _ Se Du Wu _ Ev Wv _ _).
  - destruct Td as (F & k & K & Ow). split; [exact F|]. destruct (seg_split _ _ _ _ C0) as (_ & _ & _ & _ & B). cbn [seg_its] in B. pose proof (base_mono G t1 (S q0) q1 L01). destruct Ow as (Lk & _). lia.
  - destruct Te as (F & k & K & _). split; [exact F|]. pose proof (base_mono G t2 (S q2) q3 L23). lia.
  - unfold covers. lia.
  - unfold covers. lia.
  - intros w Co. destruct (co_wf _ (ex_sane _ _ X) _ _ _ Co) as [_ Ww]. destruct (O0 w (a + i) ltac:(cbn [fst snd]; lia) Ww) as [Fw Lw]. destruct Ww as (wv & Aw & Ww & _).
    assert (w = d) as -> by (apply Un; exact (in_call G _ _ _ _ _ _ _ C0 Aw Ww Fw Lw)). apply (com_irr T G X (a + i) d). right. left. exact Co.
Qed.
