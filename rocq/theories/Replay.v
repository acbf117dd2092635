(* L3: executions whose calls are all SeqCst have the results of an interleaving of the calls (C26).  Proof machinery. *)
From Verif Require Export SeqCst CallLink Topo NoLost Interleave.
From Coq Require Import Permutation Sorted.

Record node := mknode { k_t : nat; k_q : nat; k_c : op; k_r : rval; k_x : eid; k_v : ev; k_m : mem; k_m' : mem }.
Definition k_w (n : node) : bool := e_w (k_v n).
(* a byte is passed on unchanged or not: [w'] is [w], or the write of a call that has read the byte from there and writes it *)
Inductive carries (G : graph) (b : Z) : eid -> eid -> Prop :=
| cr_head w : carries G b w w
| cr_rmw w w' r1 w1 : carries G b w w' -> g_rf G b w' r1 -> rmw_pair G r1 w1 -> writes_b G w1 b -> lib_rmw G r1 w1 -> carries G b w w1.
Definition k_cr (n : node) : op * rval := (k_c n, k_r n).
Definition thr (t : nat) (n : node) : bool := Nat.eqb (k_t n) t.
Notation cellof n := (op_cell (k_c n)).
Definition in_cellb (c : op) (b : Z) : bool := (fst (op_cell c) <=? b) && (b <? fst (op_cell c) + snd (op_cell c)).
Lemma in_cellb_spec c b : in_cellb c b = true <-> in_cell c b.
Proof. unfold in_cellb, in_cell. rewrite andb_true_iff, Z.leb_le, Z.ltb_lt. tauto. Qed.
Lemma eid_dec (x y : eid) : {x = y} + {x <> y}.
Proof. decide equality; apply Nat.eq_dec. Qed.
Lemma cell_dec (x y : Z * Z) : {x = y} + {x <> y}.
Proof. decide equality; apply Z.eq_dec. Qed.

Lemma done_at T c m m' r M M' : op_done T c m m' r -> (is_store c = true \/ forall b, in_cell c b -> M b = m b) ->
  (forall b, in_cell c b -> M' b = m' b) -> (forall b, ~ in_cell c b -> M' b = M b) -> op_done T c M M' r.
Proof.
  intros D H1 H2 H3. assert (is_store c = false -> rd (t_e T) M (fst (op_cell c)) (snd (op_cell c)) = rd (t_e T) m (fst (op_cell c)) (snd (op_cell c))) as Rd.
  { intros St. destruct H1 as [H1|H1]; [congruence|]. apply rd_ext. intros i Hi. apply H1. unfold in_cell. lia. }
  assert (forall b, in_cell c b \/ ~ in_cell c b) as Dc by (intros b; destruct (in_cellb c b) eqn:E; [left; now apply in_cellb_spec|right; intros K; apply in_cellb_spec in K; congruence]).
  assert (forall v, meq m' (wr (t_e T) m (fst (op_cell c)) (snd (op_cell c)) v) -> meq M' (wr (t_e T) M (fst (op_cell c)) (snd (op_cell c)) v)) as Wr.
  { intros v E b. destruct (Dc b) as [I|I]; [rewrite (H2 b I), (E b); apply wr_in; exact I|]. rewrite (H3 b I). symmetry. apply wr_outside. unfold in_cell in I. lia. }
  assert (is_store c = false -> meq m' m -> meq M' M) as Kp.
  { intros St E b. destruct (Dc b) as [I|I]; [|exact (H3 b I)]. destruct H1 as [H1|H1]; [congruence|]. rewrite (H2 b I), (H1 b I). apply E. }
  unfold op_done in *. destruct c, r; cbn [op_spec op_cell fst snd is_store] in *; try contradiction D; try specialize (Rd eq_refl); try specialize (Kp eq_refl).
  - destruct D as [-> E]. split; [auto|]. intros b. symmetry. apply Kp. intros x. symmetry. apply E.
  - exact (Wr _ D).
  - destruct D as [-> E]. split; [auto|exact (Wr _ E)].
  - destruct (cas_upper_bits T n); destruct D as [E D]; cbn [fst snd] in *; (split; [cbn [fst]; congruence|]); cbn [snd]; rewrite Rd; destruct ok;
      repeat match goal with H : _ /\ _ |- _ => destruct H end; auto.
  - destruct D as [E D]; cbn [fst snd] in *; (split; [cbn [fst]; congruence|]); cbn [snd]; rewrite Rd; destruct ok;
      repeat match goal with H : _ /\ _ |- _ => destruct H end; auto.
Qed.
Lemma flat_at l : forall i x, nth_error (flat l) i = Some x -> exists q s j, nth_error l q = Some s /\ nth_error (seg_its s) j = Some x /\ i = (length (flat (firstn q l)) + j)%nat.
Proof.
  induction l as [|s l IH]; intros i x H; [destruct i; discriminate H|]. unfold flat in H. cbn [map concat] in H. fold (flat l) in H.
  destruct (Nat.lt_ge_cases i (length (seg_its s))) as [L|L].
  - rewrite nth_error_app1 in H by auto. exists 0%nat, s, i. auto.
  - rewrite nth_error_app2 in H by auto. destruct (IH _ _ H) as (q & s' & j & A & B & E). exists (S q), s', j. split; [exact A|]. split; [exact B|].
    cbn [firstn]. unfold flat. cbn [map concat]. rewrite app_length. fold (flat (firstn q l)). lia.
Qed.
Lemma ss_inj {A} (k : A -> nat) l x y : StronglySorted (fun a b => (k a < k b)%nat) l -> In x l -> In y l -> k x = k y -> x = y.
Proof.
  induction 1 as [|a l S IH F]; intros X Y E; [destruct X|]. rewrite Forall_forall in F. destruct X as [<-|X], Y as [<-|Y]; auto; [pose proof (F _ Y)|pose proof (F _ X)]; lia.
Qed.
Lemma ss_strict {A} (k : A -> nat) l : StronglySorted (fun a b => (k a <= k b)%nat) l -> NoDup (map k l) -> StronglySorted (fun a b => (k a < k b)%nat) l.
Proof.
  induction 1 as [|a l S IH F]; intros N; [constructor|]. cbn in N. apply NoDup_cons_iff in N. destruct N as [N1 N2]. constructor; auto. rewrite Forall_forall in *. intros x X.
  pose proof (F x X). assert (k a <> k x) by (intros E; apply N1; rewrite E; now apply in_map). lia.
Qed.
Lemma ss_nodup {A} (k : A -> nat) l : StronglySorted (fun a b => (k a < k b)%nat) l -> NoDup (map k l).
Proof.
  induction 1 as [|a l S IH F]; cbn; constructor; auto. rewrite Forall_forall in F. intros I. apply in_map_iff in I. destruct I as (x & E & X). pose proof (F x X). lia.
Qed.

Section R.
Context (T : arch) (G : graph) (X : execution T G) (Sm : smp T = true) (Wf : t_wf T).
Context (HSC : forall t q c r its, call_at G t q c r its -> total_order (eff c r) = true).
Notation Sa := (ex_sane T G X).
Definition at_item (t q i : nat) : eid := (t, (base G t q + i)%nat).

Record good (n : node) : Prop := {
  gd_call : exists its, call_at G (k_t n) (k_q n) (k_c n) (k_r n) its /\
     (forall i v, at_ its i v -> e_w v = true -> k_x n = at_item (k_t n) (k_q n) i /\ k_w n = true);
  gd_sc : sc_access G (k_x n) (k_t n) (k_q n) (k_c n);
  gd_ev : ev_at G (k_x n) (k_v n);
  gd_cov : covers_cell (k_v n) (k_c n);
  gd_done : op_done T (k_c n) (k_m n) (k_m' n) (k_r n);
  gd_pos : 0 < snd (cellof n);
  gd_val : if k_w n then e_b (k_v n) = k_m' n /\
       (if is_store (k_c n) then e_n (k_v n) = snd (cellof n)
        else exists y u, rmw_pair G y (k_x n) /\ ev_at G y u /\ e_w u = false /\ e_a u = e_a (k_v n) /\ e_n u = e_n (k_v n) /\ forall b, cov u b -> e_b u b = k_m n b)
     else is_store (k_c n) = false /\ k_m' n = k_m n /\ forall b, cov (k_v n) b -> e_b (k_v n) b = k_m n b
}.
Lemma node_of t q c r its : call_at G t q c r its -> exists n, good n /\ k_t n = t /\ k_q n = q /\ k_c n = c /\ k_r n = r.
Proof.
  intros C. pose proof (ex_calls _ _ X _ _ _ _ _ C) as Ci. destruct (call_fact T c its r Sm Wf Ci) as (m & m' & Wm & Wm' & [D K]).
  assert (0 < snd (op_cell c)) as Pos by (destruct Ci as [f ? ? ? ? ? _ _ Im _ _ _ _ _ _]; exact (impl_pos _ _ _ Im)).
  pose proof (HSC _ _ _ _ _ C) as Or.
  destruct K as [(St & Nw & -> & i & u & Or' & Au & Cc & Bu)|(k & v & Ow & Av & Un & Cc & Ev & _ & K)].
  - pose proof (fun x F E => lift_ev G t q c r its x i u C F E Au) as Lu.
    assert (e_w u = false) as Wu by (destruct Or' as [(k' & [_ [Q _]] & _)|(_ & _ & (u' & Q & Q') & _)]; [exfalso; exact (Nw _ Q)|unfold at_ in *; congruence]).
    exists (mknode t q c r (at_item t q i) u m m). split; [|cbn; auto]. split; cbn [k_t k_q k_c k_r k_x k_v k_m k_m']; unfold k_w; cbn [k_v]; auto.
    + exists its. split; [exact C|]. intros j v Aj Wj. exfalso. apply (Nw j). exists v. auto.
    + exists r, its. split; [exact C|]. split; [exact Or|]. left. split; [exact St|]. split; [reflexivity|]. exists i. split; [reflexivity|exact Or'].
    + rewrite Wu. split; [exact St|]. split; [reflexivity|exact Bu].
  - pose proof (fun x F E => lift_ev G t q c r its x k v C F E Av) as Lv.
    assert (e_w v = true) as Wv by (destruct Ow as (_ & (v' & Q & Q') & _); unfold at_ in *; congruence).
    exists (mknode t q c r (at_item t q k) v m m'). split; [|cbn; auto]. split; cbn [k_t k_q k_c k_r k_x k_v k_m k_m']; unfold k_w; cbn [k_v]; auto.
    + exists its. split; [exact C|]. intros j v' Aj Wj. split; [|exact Wv]. now rewrite (Un j (ex_intro _ v' (conj Aj Wj))).
    + exists r, its. split; [exact C|]. split; [exact Or|]. right. split; [reflexivity|]. exists k. split; [reflexivity|exact Ow].
    + rewrite Wv. split; [exact Ev|]. destruct (is_store c) eqn:St; [exact K|]. destruct K as (i & u & Rm & Au & K1 & K2 & K3).
      assert (e_w u = false) as Wu by (destruct Rm as (w & _ & _ & _ & _ & (u' & Q & Q') & _); unfold at_ in *; congruence).
      exists (at_item t q i), u. split.
      { split; [reflexivity|]. destruct (seg_split G _ _ _ C) as (pre & post & E & Lp & _). cbn [seg_its] in E. unfold at_item. cbn [fst snd]. rewrite E, <- Lp.
        destruct Rm as (z & Z1 & Z2 & Z3 & Z4). exists z. split; [now apply nth_ctx|]. split; auto. split; auto. apply last_read_ctx; auto. apply Nat.lt_le_incl. exact (at_lt _ _ _ Z1). }
      split; [exact (lift_ev G t q c r its (at_item t q i) i u C eq_refl eq_refl Au)|]. auto.
Qed.

Lemma node_rw n y : good n -> is_store (k_c n) = false -> k_w n = true -> rmw_pair G y (k_x n) ->
  exists its, call_at G (k_t n) (k_q n) (k_c n) (k_r n) its /\ the_read G y (k_t n) (k_q n) its /\ the_write G (k_x n) (k_t n) (k_q n) its.
Proof.
  intros Gn St Wn Rp. destruct (gd_call _ Gn) as (its & C & K). pose proof (ex_calls _ _ X _ _ _ _ _ C) as Ci. destruct (call_fact T _ its _ Sm Wf Ci) as (m & m' & _ & _ & [_ F]).
  destruct (gd_sc _ Gn) as (r' & its' & C' & _ & Sh). unfold call_at in *. rewrite C in C'. injection C' as _ <-.
  assert (exists k v, op_write its k /\ at_ its k v /\ e_w v = true /\ k_x n = at_item (k_t n) (k_q n) k) as (k & v & Ow & Av & Wv & Ex).
  { destruct F as [(_ & Nw & _)|(k & v & Ow & Av & _)].
    - exfalso. destruct Rp as [_ (z & Z1 & Z2 & _)]. destruct Sh as [[_ (Fx & i & Ei & Ri)]|(Fx & i & Ei & (_ & Wi & _))]; [|exact (Nw _ Wi)].
      assert (exists u, at_ its i u /\ e_w u = false) as (u & Au & Wu) by (destruct Ri as [(kk & _ & _ & Q & _)|(_ & _ & Q & _)]; exact Q).
      pose proof (lift_ev G _ _ _ _ _ _ _ _ C Fx Ei Au) as Ev. pose proof (gd_ev _ Gn) as Ev'. unfold k_w in Wn. unfold ev_at, at_ in *. congruence.
    - assert (e_w v = true) as Wv by (destruct Ow as (_ & (v' & Q & Q') & _); unfold at_ in *; congruence). exists k, v. split; [exact Ow|]. split; [exact Av|]. split; [exact Wv|]. exact (proj1 (K k v Av Wv)). }
  destruct F as [(_ & Nw & _)|(k' & v' & Ow' & _ & _ & _ & _ & _ & F)]; [exfalso; apply (Nw k); exists v; auto|]. rewrite St in F. rewrite (ow_unique _ _ _ Ow' Ow) in *. destruct F as (i & u & Rm & _).
  exists its. split; [exact C|]. split; [|split; [now rewrite Ex|exists k; rewrite Ex; auto]].
  assert (y = at_item (k_t n) (k_q n) i) as ->.
  { destruct Rp as [Fy (z & _ & _ & _ & Ly)]. rewrite Ex in *. destruct (seg_split G _ _ _ C) as (pre & post & E & Lp & _). cbn [seg_its] in E. unfold at_item in *. cbn [fst snd] in *.
    destruct y as [ty ky]. cbn [fst snd] in *. subst ty. f_equal. destruct Rm as (z' & Z1 & _ & _ & Z4). rewrite E in Ly. rewrite <- Lp in *. apply (lr_unique _ _ _ _ Ly). apply last_read_ctx; auto. apply Nat.lt_le_incl. exact (at_lt _ _ _ Z1). }
  split; [reflexivity|]. exists i. split; [reflexivity|]. left. exists k. split; [exact Ow|]. now destruct Rm as (z & _ & _ & _ & Z).
Qed.
Lemma node_rmw n y : good n -> is_store (k_c n) = false -> k_w n = true -> rmw_pair G y (k_x n) -> lib_rmw G y (k_x n).
Proof. intros Gn St Wn Rp. destruct (node_rw n y Gn St Wn Rp) as (its & C & R & H). exists (k_t n), (k_q n), (k_c n), (k_r n), its. auto. Qed.

(* all calls, thread by thread *)
Definition lists (t : nat) (l : list node) : Prop := Forall good l /\ Forall (fun n => k_t n = t) l /\ map k_cr l = calls (g_thr G t) /\
  StronglySorted (fun a b => (k_q a < k_q b)%nat) l /\ forall q c r its, call_at G t q c r its -> exists n, In n l /\ k_q n = q.
Lemma thread_list t : exists l, lists t l.
Proof.
  assert (forall suf pre, g_thr G t = pre ++ suf -> exists l, Forall good l /\ Forall (fun n => k_t n = t) l /\ map k_cr l = calls suf /\
    StronglySorted (fun a b => (k_q a < k_q b)%nat) l /\ Forall (fun n => (length pre <= k_q n)%nat) l /\
    forall q c r its, nth_error suf q = Some (Call c r its) -> exists n, In n l /\ k_q n = (length pre + q)%nat) as K.
  { induction suf as [|s suf IH]; intros pre E.
    - exists []. repeat split; try constructor. intros q c r its H. destruct q; discriminate H.
    - destruct (IH (pre ++ [s])) as (l & H1 & H2 & H3 & H4 & H5 & H6); [now rewrite <- app_assoc|]. rewrite app_length in H5, H6. cbn [length] in H5, H6.
      destruct s as [c r its|its].
      + destruct (node_of t (length pre) c r its) as (n & Gn & Tn & Qn & Cn & Rn). { unfold call_at. rewrite E, nth_error_app2, Nat.sub_diag by lia. reflexivity. }
        exists (n :: l). split; [constructor; auto|]. split; [constructor; auto|]. split; [cbn; unfold k_cr at 1; rewrite Cn, Rn, H3; reflexivity|].
        split; [constructor; auto; eapply Forall_impl; [|exact H5]; intros a Ha; cbv beta in *; lia|]. split; [constructor; [lia|eapply Forall_impl; [|exact H5]; intros a Ha; cbv beta in *; lia]|].
        intros q c' r' its' Hq. destruct q as [|q]; [exists n; split; [now left|lia]|]. destruct (H6 q c' r' its' Hq) as (n' & I & Eq). exists n'. split; [now right|lia].
      + exists l. split; auto. split; auto. split; auto. split; auto. split; [eapply Forall_impl; [|exact H5]; intros a Ha; cbv beta in *; lia|].
        intros q c' r' its' Hq. destruct q as [|q]; [discriminate Hq|]. destruct (H6 q c' r' its' Hq) as (n' & I & Eq). exists n'. split; [auto|lia]. }
  destruct (K (g_thr G t) [] eq_refl) as (l & H1 & H2 & H3 & H4 & _ & H6). exists l. unfold lists. auto 10.
Qed.
Lemma filter_all {A} (f : A -> bool) l : Forall (fun x => f x = true) l -> filter f l = l.
Proof. induction 1 as [|x l H _ IH]; [reflexivity|]. cbn. now rewrite H, IH. Qed.
Lemma filter_none {A} (f : A -> bool) l : Forall (fun x => f x = false) l -> filter f l = [].
Proof. induction 1 as [|x l H _ IH]; [reflexivity|]. cbn. now rewrite H. Qed.
Lemma all_list N : exists L, Forall (fun n => (k_t n < N)%nat) L /\ forall t, (t < N)%nat -> lists t (filter (thr t) L).
Proof.
  induction N as [|N (L & H1 & H2)]; [exists []; split; [constructor|intros t Ht; lia]|]. destruct (thread_list N) as (l & K). pose proof K as (_ & K2 & _). exists (L ++ l). split.
  - apply Forall_app. split; [eapply Forall_impl; [|exact H1]; intros a Ha; cbv beta in *; lia|eapply Forall_impl; [|exact K2]; intros a Ha; cbv beta in *; lia].
  - intros t Ht. rewrite filter_app. destruct (Nat.eq_dec t N) as [->|Nt].
    + rewrite filter_none, filter_all; [exact K| |].
      * eapply Forall_impl; [|exact K2]. intros a Ha. unfold thr. apply Nat.eqb_eq. exact Ha.
      * eapply Forall_impl; [|exact H1]. intros a Ha. unfold thr. apply Nat.eqb_neq. cbv beta in Ha. lia.
    + rewrite (filter_none (thr t) l), app_nil_r; [apply H2; lia|]. eapply Forall_impl; [|exact K2]. intros a Ha. unfold thr. apply Nat.eqb_neq. cbv beta in Ha. lia.
Qed.

Section O.
Context (L : list node) (HL : Forall good L).
Context (Inj : forall n n', In n L -> In n' L -> k_t n = k_t n' -> k_q n = k_q n' -> n = n').
Context (All : forall t q c r its, call_at G t q c r its -> exists n, In n L /\ k_t n = t /\ k_q n = q).
Context (HCode : forall t q its v b t' q' c r its', nth_error (g_thr G t) q = Some (Code its) -> In (IE v) its -> e_w v = true -> covers v b -> call_at G t' q' c r its' -> ~ in_cell c b).
Context (HCells : forall n n', In n L -> In n' L -> cellof n = cellof n' \/ disjoint (cellof n) (cellof n')).

Lemma gd n : In n L -> good n.
Proof. rewrite Forall_forall in HL. apply HL. Qed.
Lemma x_inj n n' : In n L -> In n' L -> k_x n = k_x n' -> n = n'.
Proof.
  intros I I' E. pose proof (gd_sc _ (gd _ I)) as A. pose proof (gd_sc _ (gd _ I')) as B. rewrite <- E in B. destruct (sc_fun G _ _ _ _ _ _ _ A B) as (Et & Eq & _). auto.
Qed.
Lemma in_cov n b : In n L -> in_cell (k_c n) b -> cov (k_v n) b.
Proof. intros I H. destruct (gd_cov _ (gd _ I)) as [A B]. unfold in_cell, cov in *. lia. Qed.
Lemma w_byte n b : In n L -> k_w n = true -> cov (k_v n) b -> writes_b G (k_x n) b.
Proof. intros I W C. exists (k_v n). split; [exact (gd_ev _ (gd _ I))|]. split; [exact W|exact C]. Qed.
Lemma r_byte n b : In n L -> k_w n = false -> in_cell (k_c n) b -> reads_b G (k_x n) b.
Proof. intros I W C. exists (k_v n). split; [exact (gd_ev _ (gd _ I))|]. split; [exact W|exact (in_cov n b I C)]. Qed.
Lemma co_irr b x : ~ g_co G b x x.
Proof. intros H. apply (coherent _ Sa b x). apply ct1. right. right. left. exact H. Qed.
Lemma co_asym b x y : g_co G b x y -> ~ g_co G b y x.
Proof. intros H K. exact (co_irr b x (co_trans _ Sa _ _ _ _ H K)). Qed.
(* every write to a byte of a cell is that of a listed call *)
Lemma writer n0 b w : In n0 L -> in_cell (k_c n0) b -> writes_b G w b -> exists n, In n L /\ k_x n = w /\ k_w n = true /\ cov (k_v n) b.
Proof.
  intros I0 C0 (v & A & W & C). unfold ev_at, at_, items in A. destruct (flat_at _ _ _ A) as (q & s & j & Hq & Hj & E). destruct s as [c r its|its]; cbn [seg_its] in Hj.
  - destruct (All _ _ _ _ _ Hq) as (n & I & Et & Eq). destruct (gd_call _ (gd _ I)) as (its' & C' & K). unfold call_at in C'. rewrite Et, Eq, Hq in C'. injection C' as _ _ <-.
    destruct (K j v Hj W) as (Ex & Kw). exists n. split; [exact I|].
    assert (k_x n = w) as Ew. { rewrite Ex. unfold at_item, base. rewrite Et, Eq, <- E. now destruct w. }
    split; [exact Ew|]. split; [exact Kw|]. pose proof (gd_ev _ (gd _ I)) as V. unfold ev_at, at_, items in V. rewrite Ew, A in V. injection V as <-. exact C.
  - exfalso. destruct (gd_call _ (gd _ I0)) as (its' & C' & _). exact (HCode _ _ _ v b _ _ _ _ _ Hq (nth_error_In _ _ Hj) W C C' C0).
Qed.

(* what must come first *)
Definition b0 (n : node) : Z := fst (cellof n).
Lemma b0_in n : In n L -> in_cell (k_c n) (b0 n).
Proof. intros I. pose proof (gd_pos _ (gd _ I)). unfold in_cell, b0. lia. Qed.
Definition conf (b : Z) (n1 n2 : node) : Prop :=
  match k_w n1, k_w n2 with
  | true, true => g_co G b (k_x n1) (k_x n2)
  | false, true => fr G b (k_x n1) (k_x n2)
  | true, false => ~ fr G b (k_x n2) (k_x n1)
  | false, false => False
  end.
Definition first (n1 n2 : node) : Prop := (k_t n1 = k_t n2 /\ (k_q n1 < k_q n2)%nat) \/ (cellof n1 = cellof n2 /\ conf (b0 n1) n1 n2).
Lemma conf_sc b n1 n2 : In n1 L -> In n2 L -> cellof n1 = cellof n2 -> in_cell (k_c n1) b -> conf b n1 n2 -> sc_before G (k_x n1) (k_x n2).
Proof.
  intros I1 I2 E C H. exists (k_t n1), (k_q n1), (k_c n1), (k_t n2), (k_q n2), (k_c n2). split; [exact (gd_sc _ (gd _ I1))|]. split; [exact (gd_sc _ (gd _ I2))|]. right. split; [exact E|].
  exists b. split; [exact C|]. unfold conf in H. destruct (k_w n1) eqn:W1, (k_w n2) eqn:W2; try (exfalso; exact H).
  - left. exact H.
  - right. right. right. assert (in_cell (k_c n2) b) as C2 by (unfold in_cell in *; now rewrite <- E).
    destruct (sees T G X b (k_x n1) (k_x n2)) as (w' & F & K); [exact (w_byte n1 b I1 W1 (in_cov n1 b I1 C))|exact (r_byte n2 b I2 W2 C2)|exact H|].
    destruct (writer n1 b w' I1 C (proj1 (rf_ends T G X _ _ _ F))) as (n' & I' & E' & _ & _). exists w', (k_t n'), (k_q n'), (k_c n'). split; [exact F|]. split; [rewrite <- E'; exact (gd_sc _ (gd _ I'))|exact K].
  - right. left. exact H.
Qed.
Lemma first_sc n1 n2 : In n1 L -> In n2 L -> first n1 n2 -> sc_before G (k_x n1) (k_x n2).
Proof.
  intros I1 I2 [[Et Lt]|[E C]]; [|exact (conf_sc _ _ _ I1 I2 E (b0_in _ I1) C)].
  exists (k_t n1), (k_q n1), (k_c n1), (k_t n2), (k_q n2), (k_c n2). pose proof (gd_sc _ (gd _ I1)) as A1. pose proof (gd_sc _ (gd _ I2)) as A2. split; [exact A1|]. split; [exact A2|]. left.
  destruct (sc_range G _ _ _ _ A1) as [F1 R1], (sc_range G _ _ _ _ A2) as [F2 R2]. split; [congruence|]. rewrite <- Et in R2. pose proof (base_mono G (k_t n1) (S (k_q n1)) (k_q n2) Lt). lia.
Qed.
Lemma first_acyclic n : ~ clos_trans _ (on first L) n n.
Proof.
  intros H. apply (sc_acyclic T G X Wf (k_x n)). assert (forall a b, clos_trans _ (on first L) a b -> clos_trans _ (sc_before G) (k_x a) (k_x b)) as K; [|exact (K _ _ H)].
  clear n H. intros a b H. induction H as [a b (Ia & Ib & Q)|a b c _ H1 _ H2]; [apply ct1; now apply first_sc|exact (t_trans _ _ _ _ _ H1 H2)].
Qed.
Lemma two_cycle n1 n2 b b' : In n1 L -> In n2 L -> cellof n1 = cellof n2 -> in_cell (k_c n1) b -> in_cell (k_c n1) b' -> conf b n1 n2 -> conf b' n2 n1 -> False.
Proof.
  intros I1 I2 E C C' H H'. apply (sc_acyclic T G X Wf (k_x n1)). apply t_trans with (k_x n2); apply ct1; [exact (conf_sc b _ _ I1 I2 E C H)|].
  apply (conf_sc b' _ _ I2 I1 (eq_sym E)); [unfold in_cell in *; now rewrite <- E|exact H'].
Qed.
Lemma fr_dec b n1 n2 : In n1 L -> In n2 L -> cellof n1 = cellof n2 -> in_cell (k_c n1) b -> k_w n1 = false -> k_w n2 = true -> fr G b (k_x n1) (k_x n2) \/ ~ fr G b (k_x n1) (k_x n2).
Proof.
  intros I1 I2 E C W1 W2. pose proof (r_byte n1 b I1 W1 C) as R1. assert (in_cell (k_c n2) b) as C2 by (unfold in_cell in *; now rewrite <- E).
  pose proof (w_byte n2 b I2 W2 (in_cov n2 b I2 C2)) as Ww. pose proof R1 as (u & Au & Wu & Cu). destruct (rf_some _ Sa _ _ _ Au Wu Cu) as [(w' & F)|(N & _)].
  - destruct (eid_dec w' (k_x n2)) as [->|Ne]; [right; intros Q; exact (co_irr _ _ (fr_rf G _ _ _ _ Q F))|].
    destruct (co_total _ Sa b w' (k_x n2) (proj1 (rf_ends T G X _ _ _ F)) Ww Ne) as [Q|Q].
    + left. split; [exact R1|]. split; [exact Ww|]. intros w'' F'. now rewrite (rf_one _ Sa _ _ _ _ F' F).
    + right. intros K. exact (co_asym _ _ _ Q (fr_rf G _ _ _ _ K F)).
  - left. split; [exact R1|]. split; [exact Ww|]. intros w'' F'. exfalso. exact (N _ F').
Qed.
(* any two different calls on one cell, at least one of them writing, are in conflict *)
Lemma conf_total b n1 n2 : In n1 L -> In n2 L -> cellof n1 = cellof n2 -> in_cell (k_c n1) b -> n1 <> n2 -> (k_w n1 = true \/ k_w n2 = true) -> conf b n1 n2 \/ conf b n2 n1.
Proof.
  intros I1 I2 E C Ne W. assert (in_cell (k_c n2) b) as C2 by (unfold in_cell in *; now rewrite <- E). unfold conf. destruct (k_w n1) eqn:W1, (k_w n2) eqn:W2.
  - apply (co_total _ Sa b); [exact (w_byte n1 b I1 W1 (in_cov n1 b I1 C))|exact (w_byte n2 b I2 W2 (in_cov n2 b I2 C2))|]. intros Q. apply Ne. exact (x_inj _ _ I1 I2 Q).
  - destruct (fr_dec b n2 n1 I2 I1 (eq_sym E) C2 W2 W1); tauto.
  - destruct (fr_dec b n1 n2 I1 I2 E C W1 W2); tauto.
  - destruct W; discriminate.
Qed.
(* the same at every byte *)
Lemma conf_byte b b' n1 n2 : In n1 L -> In n2 L -> cellof n1 = cellof n2 -> in_cell (k_c n1) b -> in_cell (k_c n1) b' -> conf b n1 n2 -> conf b' n1 n2.
Proof.
  intros I1 I2 E C C' H. assert (n1 <> n2) as Ne. { intros <-. exact (two_cycle n1 n1 b b I1 I1 E C C H H). }
  assert (k_w n1 = true \/ k_w n2 = true) as W. { unfold conf in H. destruct (k_w n1), (k_w n2); auto. }
  destruct (conf_total b' n1 n2 I1 I2 E C' Ne W) as [K|K]; [exact K|]. exfalso. exact (two_cycle n1 n2 b b' I1 I2 E C C' H K).
Qed.
Lemma first_dec n1 n2 : In n1 L -> In n2 L -> first n1 n2 \/ ~ first n1 n2.
Proof.
  intros I1 I2. assert ((k_t n1 = k_t n2 /\ (k_q n1 < k_q n2)%nat) \/ ~ (k_t n1 = k_t n2 /\ (k_q n1 < k_q n2)%nat)) as [D|D].
  { destruct (Nat.eq_dec (k_t n1) (k_t n2)), (lt_dec (k_q n1) (k_q n2)); tauto. }
  - left. left. exact D.
  - assert ((cellof n1 = cellof n2 /\ conf (b0 n1) n1 n2) \/ ~ (cellof n1 = cellof n2 /\ conf (b0 n1) n1 n2)) as [K|K]; [|left; right; exact K|right; intros [Q|Q]; auto].
    destruct (cell_dec (cellof n1) (cellof n2)) as [E|E]; [|right; tauto].
    assert (conf (b0 n1) n1 n2 \/ ~ conf (b0 n1) n1 n2) as [Q|Q]; [|left; auto|right; tauto].
    destruct (k_w n1) eqn:W1, (k_w n2) eqn:W2; try (right; unfold conf; rewrite W1, W2; tauto).
    all: assert ({n1 = n2} + {n1 <> n2}) as [<-|Ne] by (destruct (eid_dec (k_x n1) (k_x n2)) as [Q|Q]; [left; exact (x_inj _ _ I1 I2 Q)|right; congruence]).
    all: try (right; intros Q; exact (two_cycle n1 n1 _ _ I1 I1 E (b0_in _ I1) (b0_in _ I1) Q Q)).
    all: destruct (conf_total (b0 n1) n1 n2 I1 I2 E (b0_in _ I1) Ne) as [Q|Q]; [rewrite W1, W2; auto|left; exact Q|right; intros Q'; exact (two_cycle n1 n2 _ _ I1 I2 E (b0_in _ I1) (b0_in _ I1) Q' Q)].
Qed.

(* ---- the value of a byte of the cell [C] ---- *)
Definition own (C : Z * Z) (n : node) : Prop := In n L /\ cellof n = C /\ k_w n = true.
Lemma own_in C n b n0 : own C n -> cellof n0 = C -> in_cell (k_c n0) b -> in_cell (k_c n) b.
Proof. intros (_ & E & _) E0 I. unfold in_cell in *. now rewrite E, <- E0. Qed.
Lemma overlap n n' b : In n L -> In n' L -> in_cell (k_c n) b -> in_cell (k_c n') b -> cellof n = cellof n'.
Proof. intros I I' H H'. destruct (HCells n n' I I') as [E|D]; [exact E|]. exfalso. unfold in_cell, disjoint in *. lia. Qed.
(* the byte written by [n'] was last changed by a call on its own cell *)
Definition origin (C : Z * Z) (b : Z) (n' : node) : Prop :=
  (exists n1, own C n1 /\ carries G b (k_x n1) (k_x n') /\ (n1 = n' \/ g_co G b (k_x n1) (k_x n')) /\ k_m' n1 b = k_m' n' b /\
     forall n2, own C n2 -> g_co G b (k_x n1) (k_x n2) -> g_co G b (k_x n') (k_x n2)) \/
  (k_m' n' b = g_init G b /\ forall n2, own C n2 -> g_co G b (k_x n') (k_x n2)).
Lemma origin_all n0 b : In n0 L -> in_cell (k_c n0) b -> forall n', In n' L -> k_w n' = true -> cov (k_v n') b -> origin (cellof n0) b n'.
Proof.
  intros I0 C0. assert (forall w, Acc (g_co G b) w -> forall n', k_x n' = w -> In n' L -> k_w n' = true -> cov (k_v n') b -> origin (cellof n0) b n') as K.
  { intros w A. induction A as [w _ IH]. intros n' <- I' W' Cv. destruct (cell_dec (cellof n') (cellof n0)) as [E|E].
    { left. exists n'. split; [split; auto|]. split; [apply cr_head|]. split; [auto|]. split; auto. }
    assert (~ in_cell (k_c n') b) as Nb by (intros Q; apply E; exact (overlap n' n0 b I' I0 Q C0)).
    pose proof (gd_val _ (gd _ I')) as V. rewrite W' in V. destruct V as (Ev & V). destruct (is_store (k_c n')) eqn:St.
    { exfalso. apply Nb. destruct (gd_cov _ (gd _ I')) as [Q1 Q2]. unfold in_cell, cov in *. lia. }
    destruct V as (y & u & Rm & Au & Wu & Ea & En & Bu). assert (covers u b) as Cu by (unfold covers, cov in *; lia).
    assert (k_m' n' b = e_b u b) as Eb. { rewrite (Bu b Cu). exact (done_only T _ _ _ _ b (gd_done _ (gd _ I')) Nb). }
    assert (reads_b G y b) as Ry by (exists u; auto). pose proof (w_byte n' b I' W' Cv) as Ww.
    assert (forall n2, own (cellof n0) n2 -> fr G b y (k_x n2) -> g_co G b (k_x n') (k_x n2)) as At.
    { intros n2 (I2 & E2 & W2) F. apply (co_or T G X); auto; [exact (proj1 (proj2 F))| |exact (atomic_rmw _ Sa _ _ _ _ Rm F)].
      intros Q. apply E. rewrite <- E2. f_equal. f_equal. symmetry. exact (x_inj _ _ I2 I' Q). }
    assert (forall n2, own (cellof n0) n2 -> writes_b G (k_x n2) b) as Wo.
    { intros n2 O2. pose proof (own_in _ _ b n0 O2 eq_refl C0) as Q. destruct O2 as (I2 & E2 & W2). exact (w_byte n2 b I2 W2 (in_cov n2 b I2 Q)). }
    destruct (rf_some _ Sa _ _ _ Au Wu Cu) as [(w'' & F)|(N & Ei)].
    - destruct (writer n0 b w'' I0 C0 (proj1 (rf_ends T G X _ _ _ F))) as (n'' & I'' & E'' & W'' & Cv'').
      pose proof (fr_rf G _ _ _ _ (rmw_fr T G X b y (k_x n') Rm Ry Ww) F) as Co.
      assert (k_m' n'' b = k_m' n' b) as Ev''.
      { rewrite Eb. destruct (rf_wf _ Sa _ _ _ F) as (v & u' & V1 & _ & _ & V2 & _ & _ & Q). pose proof (gd_val _ (gd _ I'')) as V. rewrite W'' in V. destruct V as (<- & _).
        pose proof (gd_ev _ (gd _ I'')) as V3. rewrite E'' in V3. unfold ev_at, at_ in *. congruence. }
      assert (origin (cellof n0) b n'') as [(n1 & O1 & Ca & P1 & V1 & Q1)|(V1 & Q1)]. { apply (IH w''); auto. }
      + left. exists n1. split; [exact O1|]. split. { rewrite E'' in Ca. apply (cr_rmw G b _ w'' y (k_x n') Ca F Rm Ww). exact (node_rmw n' y (gd _ I') St W' Rm). }
        split. { right. destruct P1 as [->|P1]; [now rewrite E''|]. rewrite E'' in P1. exact (co_trans _ Sa _ _ _ _ P1 Co). }
        split; [congruence|]. intros n2 O2 C2. apply At; auto. split; [exact Ry|]. split; [auto|]. intros w1 F1. rewrite (rf_one _ Sa _ _ _ _ F1 F), <- E''. auto.
      + right. split; [congruence|]. intros n2 O2. apply At; auto. split; [exact Ry|]. split; [auto|]. intros w1 F1. rewrite (rf_one _ Sa _ _ _ _ F1 F), <- E''. auto.
    - right. split; [congruence|]. intros n2 O2. apply At; auto. split; [exact Ry|]. split; [auto|]. intros w1 F1. exfalso. exact (N _ F1). }
  intros n' I' W' Cv. apply (K (k_x n')); auto. apply (fin_acc eid_dec (g_co G b) (fun x y z => co_trans _ Sa b x y z) (co_irr b) (length (map k_x L)) (map k_x L)); [lia|].
  intros y Q. destruct (writer n0 b y I0 C0 (proj1 (co_wf _ Sa _ _ _ Q))) as (n & I & <- & _). now apply in_map.
Qed.

(* ---- replaying the calls in a given order ---- *)
Definition apply1 (m : mem) (n : node) : mem := fun b => if in_cellb (k_c n) b && k_w n then k_m' n b else m b.
Definition mem_after (P : list node) : mem := fold_left apply1 P (g_init G).
Lemma mem_snoc P n : mem_after (P ++ [n]) = apply1 (mem_after P) n.
Proof. unfold mem_after. now rewrite fold_left_app. Qed.
Lemma last_val P b n0 : incl P L -> In n0 L -> in_cell (k_c n0) b ->
  (mem_after P b = g_init G b /\ forall n, own (cellof n0) n -> ~ In n P) \/
  exists P1 n1 P2, P = P1 ++ n1 :: P2 /\ own (cellof n0) n1 /\ mem_after P b = k_m' n1 b /\ forall n, own (cellof n0) n -> ~ In n P2.
Proof.
  intros Inc I0 C0. induction P as [|n P IH] using rev_ind; [left; split; [reflexivity|]; intros n _ []|]. rewrite mem_snoc. unfold apply1.
  assert (In n L) as In_ by (apply Inc, in_or_app; right; now left).
  destruct (in_cellb (k_c n) b && k_w n) eqn:E.
  - right. apply andb_true_iff in E. destruct E as [E W]. apply in_cellb_spec in E. exists P, n, []. split; [reflexivity|]. split; [split; [exact In_|split; [exact (overlap n n0 b In_ I0 E C0)|exact W]]|]. auto.
  - assert (~ own (cellof n0) n) as No.
    { intros O. pose proof (own_in _ _ b n0 O eq_refl C0) as Q. destruct O as (_ & _ & W). apply in_cellb_spec in Q. rewrite Q, W in E. discriminate E. }
    destruct IH as [[V N]|(P1 & n1 & P2 & -> & O & V & N)]; [intros z Z; apply Inc, in_or_app; auto| |].
    + left. split; [exact V|]. intros n' O' I'. apply in_app_or in I'. destruct I' as [I'|[<-|[]]]; [exact (N n' O' I')|contradiction].
    + right. exists P1, n1, (P2 ++ [n]). split; [now rewrite <- app_assoc|]. split; [exact O|]. split; [exact V|]. intros n' O' I'. apply in_app_or in I'. destruct I' as [I'|[<-|[]]]; [exact (N n' O' I')|contradiction].
Qed.
Lemma max_last P b n0 P1 n3 P2 n1 : incl P L -> StronglySorted (fun a b => ~ first b a) P -> In n0 L -> in_cell (k_c n0) b ->
  P = P1 ++ n3 :: P2 -> own (cellof n0) n3 -> (forall n, own (cellof n0) n -> ~ In n P2) ->
  own (cellof n0) n1 -> In n1 P -> (forall n2, own (cellof n0) n2 -> In n2 P -> ~ g_co G b (k_x n1) (k_x n2)) -> n1 = n3.
Proof.
  intros Inc So I0 C0 -> O3 N O1 I1 Mx. apply in_app_or in I1. destruct I1 as [I1|[->|I1]]; [|reflexivity|exfalso; exact (N n1 O1 I1)].
  destruct (ss_app _ _ _ So) as (_ & _ & Q). specialize (Q n1 n3 I1 (or_introl eq_refl)). 
  pose proof O1 as (L1 & E1 & W1). pose proof O3 as (L3 & E3 & W3). pose proof (own_in _ _ b n0 O1 eq_refl C0) as Cb1. pose proof (own_in _ _ b n0 O3 eq_refl C0) as Cb3.
  assert ({n1 = n3} + {n1 <> n3}) as [->|Ne] by (destruct (eid_dec (k_x n1) (k_x n3)) as [Z|Z]; [left; exact (x_inj _ _ L1 L3 Z)|right; congruence]); [reflexivity|]. exfalso.
  destruct (co_total _ Sa b (k_x n1) (k_x n3)) as [Z|Z].
  + exact (w_byte n1 b L1 W1 (in_cov n1 b L1 Cb1)).
  + exact (w_byte n3 b L3 W3 (in_cov n3 b L3 Cb3)).
  + intros Z. apply Ne. exact (x_inj _ _ L1 L3 Z).
  + exact (Mx n3 O3 ltac:(apply in_or_app; right; now left) Z).
  + apply Q. right. split; [congruence|]. apply (conf_byte b); auto; [congruence|now apply b0_in|]. unfold conf. now rewrite W3, W1.
Qed.
Lemma cut_val P b n0 v : incl P L -> StronglySorted (fun a b => ~ first b a) P -> In n0 L -> in_cell (k_c n0) b ->
  ((exists n1, own (cellof n0) n1 /\ In n1 P /\ k_m' n1 b = v /\ forall n2, own (cellof n0) n2 -> In n2 P -> ~ g_co G b (k_x n1) (k_x n2)) \/
   (v = g_init G b /\ forall n2, own (cellof n0) n2 -> ~ In n2 P)) -> mem_after P b = v.
Proof.
  intros Inc So I0 C0 H. destruct (last_val P b n0 Inc I0 C0) as [[V N]|(P1 & n3 & P2 & E & O3 & V & N)].
  - destruct H as [(n1 & O1 & I1 & _)|(-> & _)]; [exfalso; exact (N n1 O1 I1)|exact V].
  - destruct H as [(n1 & O1 & I1 & <- & Mx)|(_ & Z)]; [|exfalso; apply (Z n3 O3); rewrite E; apply in_or_app; right; now left].
    rewrite V. f_equal. now rewrite (max_last P b n0 P1 n3 P2 n1 Inc So I0 C0 E O3 N O1 I1 Mx).
Qed.

Section I.
Context (S : list node) (Pm : Permutation L S) (So : StronglySorted (fun a b => ~ first b a) S).
Lemma in_S n : In n S <-> In n L.
Proof. split; apply Permutation_in; [now apply Permutation_sym|exact Pm]. Qed.
Section N.
Context (P : list node) (n : node) (Q : list node) (ES : S = P ++ n :: Q).
Lemma n_in : In n L.
Proof. apply in_S. rewrite ES. apply in_or_app. right. now left. Qed.
Lemma P_in : incl P L.
Proof. intros x I. apply in_S. rewrite ES. apply in_or_app. now left. Qed.
Lemma P_sorted : StronglySorted (fun a b => ~ first b a) P.
Proof. rewrite ES in So. apply (ss_app _ _ _ So). Qed.
Lemma pos_P b n2 : In n2 L -> cellof n2 = cellof n -> in_cell (k_c n) b -> conf b n2 n -> In n2 P.
Proof.
  intros I2 E C H. assert (in_cell (k_c n2) b) as C2 by (unfold in_cell in *; now rewrite E).
  assert (first n2 n) as F by (right; split; [exact E|]; exact (conf_byte b (b0 n2) n2 n I2 n_in E C2 (b0_in n2 I2) H)).
  pose proof (proj2 (in_S n2) I2) as J. rewrite ES in J. apply in_app_or in J. destruct J as [J|[<-|J]]; [exact J| |].
  - exfalso. exact (two_cycle n n b b n_in n_in eq_refl C C H H).
  - exfalso. pose proof So as So'. rewrite ES in So'. destruct (ss_app _ _ _ So') as (_ & K & _). apply StronglySorted_inv in K. destruct K as [_ K]. rewrite Forall_forall in K. exact (K n2 J F).
Qed.
Lemma neg_P b n2 : In n2 L -> cellof n2 = cellof n -> in_cell (k_c n) b -> conf b n n2 -> ~ In n2 P.
Proof.
  intros I2 E C H J. assert (first n n2) as F by (right; split; [now symmetry|]; exact (conf_byte b (b0 n) n n2 n_in I2 (eq_sym E) C (b0_in n n_in) H)).
  pose proof So as So'. rewrite ES in So'. destruct (ss_app _ _ _ So') as (_ & _ & K). exact (K n2 n J (or_introl eq_refl) F).
Qed.
Context (Nd : NoDup S).
Lemma not_P : ~ In n P.
Proof. rewrite ES in Nd. apply NoDup_remove_2 in Nd. intros J. apply Nd, in_or_app. now left. Qed.
(* where a call took a byte of its cell from *)
Definition read_of (y : eid) : Prop := (k_w n = false /\ y = k_x n) \/ (k_w n = true /\ rmw_pair G y (k_x n)).
Lemma reads_src b : is_store (k_c n) = false -> in_cell (k_c n) b ->
  (exists n1 w' y, own (cellof n) n1 /\ In n1 P /\ k_m' n1 b = k_m n b /\ (forall n2, own (cellof n) n2 -> In n2 P -> ~ g_co G b (k_x n1) (k_x n2)) /\
     carries G b (k_x n1) w' /\ g_rf G b w' y /\ read_of y) \/
  (k_m n b = g_init G b /\ forall n2, own (cellof n) n2 -> ~ In n2 P).
Proof.
  intros St C. pose proof n_in as In_. pose proof (gd_val _ (gd _ In_)) as V.
  assert (exists y u, read_of y /\ ev_at G y u /\ e_w u = false /\ covers u b /\ e_b u b = k_m n b /\
    (forall n2, own (cellof n) n2 -> fr G b y (k_x n2) -> ~ In n2 P) /\
    (forall w' n2, g_rf G b w' y -> own (cellof n) n2 -> k_x n2 = w' \/ g_co G b (k_x n2) w' -> In n2 P)) as (y & u & Ro & Au & Wu & Cu & Eb & H1 & H2).
  { destruct (k_w n) eqn:W.
    - destruct V as (Ev & V). rewrite St in V. destruct V as (y & u & Rm & Au & Wu & Ea & En & Bu). pose proof (in_cov n b In_ C) as Cv.
      assert (covers u b) as Cu by (unfold covers, cov in *; lia). exists y, u. split; [right; split; [exact W|exact Rm]|]. split; [exact Au|]. split; [exact Wu|]. split; [exact Cu|]. split; [exact (Bu b Cu)|].
      assert (reads_b G y b) as Ry by (exists u; auto). pose proof (w_byte n b In_ W Cv) as Ww. split.
      + intros n2 (I2 & E2 & W2) F. destruct (eid_dec (k_x n2) (k_x n)) as [Z|Z]; [rewrite (x_inj _ _ I2 In_ Z); exact not_P|].
        apply (neg_P b); auto. unfold conf. rewrite W, W2. apply (co_or T G X); auto; [exact (proj1 (proj2 F))|exact (atomic_rmw _ Sa _ _ _ _ Rm F)].
      + intros w' n2 F (I2 & E2 & W2) K. apply (pos_P b); auto. unfold conf. rewrite W, W2. pose proof (fr_rf G _ _ _ _ (rmw_fr T G X b y (k_x n) Rm Ry Ww) F) as Co.
        destruct K as [->|K]; [exact Co|exact (co_trans _ Sa _ _ _ _ K Co)].
    - destruct V as (_ & _ & Bu). pose proof (in_cov n b In_ C) as Cv. exists (k_x n), (k_v n). split; [left; split; [exact W|reflexivity]|]. split; [exact (gd_ev _ (gd _ In_))|]. split; [exact W|]. split; [exact Cv|]. split; [exact (Bu b Cv)|]. split.
      + intros n2 (I2 & E2 & W2) F. apply (neg_P b); auto. unfold conf. now rewrite W, W2.
      + intros w' n2 F (I2 & E2 & W2) K. apply (pos_P b); auto. unfold conf. rewrite W, W2. intros Fr. pose proof (fr_rf G _ _ _ _ Fr F) as Co.
        destruct K as [<-|K]; [exact (co_irr _ _ Co)|exact (co_asym _ _ _ K Co)]. }
  assert (forall n2, own (cellof n) n2 -> writes_b G (k_x n2) b) as Wo.
  { intros n2 O2. pose proof (own_in _ _ b n O2 eq_refl C) as Z. destruct O2 as (I2 & E2 & W2). exact (w_byte n2 b I2 W2 (in_cov n2 b I2 Z)). }
  assert (reads_b G y b) as Ry by (exists u; auto).
  destruct (rf_some _ Sa _ _ _ Au Wu Cu) as [(w' & F)|(N & Ei)].
  - destruct (writer n b w' In_ C (proj1 (rf_ends T G X _ _ _ F))) as (n' & I' & E' & W' & Cv').
    assert (k_m' n' b = k_m n b) as Ev'.
    { rewrite <- Eb. destruct (rf_wf _ Sa _ _ _ F) as (v & u' & V1 & _ & _ & V2 & _ & _ & Z). pose proof (gd_val _ (gd _ I')) as V'. rewrite W' in V'. destruct V' as (<- & _).
      pose proof (gd_ev _ (gd _ I')) as V3. rewrite E' in V3. unfold ev_at, at_ in *. congruence. }
    assert (forall n2, own (cellof n) n2 -> g_co G b (k_x n') (k_x n2) -> ~ In n2 P) as H3.
    { intros n2 O2 K. apply H1; auto. split; [exact Ry|]. split; [auto|]. intros w1 F1. now rewrite (rf_one _ Sa _ _ _ _ F1 F), <- E'. }
    destruct (origin_all n b In_ C n' I' W' Cv') as [(n1 & O1 & Ca & P1 & V1 & Z1)|(V1 & Z1)].
    + left. exists n1, w', y. split; [exact O1|]. split; [|split; [congruence|split; [|split; [now rewrite <- E'|auto]]]].
      * apply (H2 w'); auto. destruct P1 as [->|P1]; [now left|right; now rewrite <- E'].
      * intros n2 O2 I2 K. exact (H3 n2 O2 (Z1 n2 O2 K) I2).
    + right. split; [congruence|]. intros n2 O2. apply H3; auto.
  - right. split; [congruence|]. intros n2 O2. apply H1; auto. split; [exact Ry|]. split; [auto|]. intros w1 F1. exfalso. exact (N _ F1).
Qed.
(* what a call found in its cell is what the calls before it left there *)
Lemma reads_value b : is_store (k_c n) = false -> in_cell (k_c n) b -> mem_after P b = k_m n b.
Proof.
  intros St C. apply (cut_val P b n); auto using P_in, P_sorted, n_in. destruct (reads_src b St C) as [(n1 & w' & y & O & I1 & V & Mx & _)|H]; [left; exists n1; auto|right; auto].
Qed.
Lemma reads_last b P1 n1 P2 : is_store (k_c n) = false -> in_cell (k_c n) b -> P = P1 ++ n1 :: P2 -> own (cellof n) n1 -> (forall n', own (cellof n) n' -> ~ In n' P2) ->
  exists w' y, carries G b (k_x n1) w' /\ g_rf G b w' y /\ read_of y.
Proof.
  intros St C E O N. destruct (reads_src b St C) as [(n1' & w' & y & O' & I1 & _ & Mx & H)|(_ & Z)]; [|exfalso; apply (Z n1 O); rewrite E; apply in_or_app; right; now left].
  rewrite <- (max_last P b n P1 n1 P2 n1' P_in P_sorted n_in C E O N O' I1 Mx). eauto.
Qed.
Lemma replay_step : op_done T (k_c n) (mem_after P) (mem_after (P ++ [n])) (k_r n).
Proof.
  pose proof n_in as In_. rewrite mem_snoc. apply (done_at T (k_c n) (k_m n) (k_m' n)).
  - exact (gd_done _ (gd _ In_)).
  - destruct (is_store (k_c n)) eqn:St; [now left|right]. intros b C. now apply reads_value.
  - intros b C. unfold apply1. rewrite (proj2 (in_cellb_spec _ _) C). destruct (k_w n) eqn:W; [reflexivity|]. cbn [andb].
    pose proof (gd_val _ (gd _ In_)) as V. rewrite W in V. destruct V as (St & -> & _). now apply reads_value.
  - intros b C. unfold apply1. destruct (in_cellb (k_c n) b) eqn:Z; [exfalso; apply C; now apply in_cellb_spec|reflexivity].
Qed.
End N.
Lemma replay : NoDup S -> forall Q P, S = P ++ Q -> interleaved (op_done T) (fun t => map k_cr (filter (thr t) Q)) (mem_after P) (mem_after S).
Proof.
  intros Nd. induction Q as [|n Q IH]; intros P E.
  - rewrite E, app_nil_r. apply il_done. reflexivity.
  - apply (il_step (op_done T) _ (fun t => map k_cr (filter (thr t) Q)) (k_t n) (k_c n) (k_r n) (map k_cr (filter (thr (k_t n)) Q)) _ (mem_after (P ++ [n]))).
    + cbn [filter]. unfold thr at 1. rewrite Nat.eqb_refl. reflexivity.
    + reflexivity.
    + intros t' Ne. cbn [filter]. unfold thr at 2. rewrite (proj2 (Nat.eqb_neq _ _)); [reflexivity|auto].
    + exact (replay_step P n Q E Nd).
    + apply IH. now rewrite <- app_assoc.
Qed.
(* the memory at the end *)
Lemma final_value b n0 : In n0 L -> in_cell (k_c n0) b ->
  ((forall w, ~ writes_b G w b) -> mem_after S b = g_init G b) /\
  (forall w v, ev_at G w v -> e_w v = true -> covers v b -> (forall w', ~ g_co G b w w') -> mem_after S b = e_b v b).
Proof.
  intros I0 C0. assert (incl S L) as Inc by (intros x; apply in_S). split.
  - intros N. apply (cut_val S b n0); auto. right. split; [reflexivity|]. intros n2 O2 _. pose proof (own_in _ _ b n0 O2 eq_refl C0) as Z. destruct O2 as (I2 & E2 & W2).
    exact (N _ (w_byte n2 b I2 W2 (in_cov n2 b I2 Z))).
  - intros w v A W Cv Mx. destruct (writer n0 b w I0 C0 (ex_intro _ v (conj A (conj W Cv)))) as (n' & I' & E' & W' & Cv').
    assert (k_m' n' b = e_b v b) as Ev'.
    { pose proof (gd_val _ (gd _ I')) as V'. rewrite W' in V'. destruct V' as (<- & _). pose proof (gd_ev _ (gd _ I')) as V3. rewrite E' in V3. unfold ev_at, at_ in *. congruence. }
    apply (cut_val S b n0); auto. destruct (origin_all n0 b I0 C0 n' I' W' Cv') as [(n1 & O1 & _ & P1 & V1 & Z1)|(V1 & Z1)].
    + left. exists n1. split; [exact O1|]. split; [apply in_S; apply O1|]. split; [congruence|]. intros n2 O2 _ K. rewrite E' in Z1. exact (Mx _ (Z1 n2 O2 K)).
    + right. split; [congruence|]. intros n2 O2 _. rewrite E' in Z1. exact (Mx _ (Z1 n2 O2)).
Qed.
End I.
End O.
End R.
