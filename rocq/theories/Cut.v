(* C41: an execution cut short: each thread stopped early, so that every read that is left still has the write it reads from.  Proof machinery. *)
From Verif Require Import Graph GraphProofs Prop_drf Merge Prop_drfsc Replay.

(* ---- lists of items ---- *)
Section I.
Context (M : mm) (L post : list item).
Notation L' := (L ++ post).
Lemma pf_nth i x : nth_error L i = Some x -> nth_error L' i = Some x.
Proof. intros H. rewrite nth_error_app1; [exact H|]. apply nth_error_Some. congruence. Qed.
Lemma pf_nth' i : (i < length L)%nat -> nth_error L' i = nth_error L i.
Proof. intros H. now rewrite nth_error_app1. Qed.
Lemma pf_lt i x : nth_error L i = Some x -> (i < length L)%nat.
Proof. intros H. apply nth_error_Some. congruence. Qed.
Lemma pf_last k i : (k <= length L)%nat -> last_read L k i -> last_read L' k i.
Proof.
  intros Hk (Lt & (v & A & Wv) & Un). split; [exact Lt|]. split; [exists v; split; [now apply pf_nth|exact Wv]|]. intros m Hm (u & Au & Wu). apply (Un m Hm). exists u. split; [|exact Wu]. unfold at_ in *. rewrite pf_nth' in Au by lia. exact Au.
Qed.
Lemma pf_fence k a b : fence_at M L k a b -> fence_at M L' k a b.
Proof. intros [(f & A & B)|A]; [left; exists f; split; [now apply pf_nth|exact B]|right; now apply pf_nth]. Qed.
Lemma pf_full k : full_at M L k -> full_at M L' k.
Proof. intros [(f & A & B)|A]; [left; exists f; split; [now apply pf_nth|exact B]|right; now apply pf_nth]. Qed.
Lemma pf_fenced i j : fenced M L i j -> fenced M L' i j.
Proof. intros (v & w & k & A & B & C & D). exists v, w, k. split; [now apply pf_nth|]. split; [now apply pf_nth|]. split; [exact C|now apply pf_fence]. Qed.
Lemma pf_ffenced i j : ffenced M L i j -> ffenced M L' i j.
Proof. intros ((v & A) & (w & B) & k & C & D). split; [exists v; now apply pf_nth|]. split; [exists w; now apply pf_nth|]. exists k. split; [exact C|now apply pf_full]. Qed.
Lemma pf_rmw i j : rmw L i j -> rmw L' i j.
Proof. intros (w & A & B & C & D). exists w. split; [now apply pf_nth|]. split; [exact B|]. split; [exact C|]. apply pf_last; [|exact D]. apply Nat.lt_le_incl. exact (pf_lt _ _ A). Qed.
Lemma pf_lo i j : lo M L i j -> lo M L' i j.
Proof.
  intros [v w H A B C|v w H A B C|v w H A B C|v w H A B C1 C2 C3 C4 C5 C6|H|((w & A) & k & m & f & H & (C1 & C2) & D & E)|H].
  - apply lo_base with v w; auto; now apply pf_nth.
  - apply lo_acq with v w; auto; now apply pf_nth.
  - apply lo_rel with v w; auto; now apply pf_nth.
  - apply lo_rcsc with v w; auto; now apply pf_nth.
  - apply lo_fence. now apply pf_fenced.
  - apply lo_ctl. split; [exists w; now apply pf_nth|]. exists k, m, f. split; [exact H|]. split; [split; [now apply pf_nth|apply pf_last; [|exact C2]; apply Nat.lt_le_incl; exact (pf_lt _ _ C1)]|]. split; [now apply pf_nth|exact E].
  - apply lo_rmw. now apply pf_rmw.
Qed.
End I.

(* ---- lists of pieces ---- *)
Inductive spre : list seg -> list seg -> Prop :=
| sp_nil l : spre [] l
| sp_cons s l l' : spre l l' -> spre (s :: l) (s :: l')
| sp_code its its' l : spre [Code its] (Code (its ++ its') :: l).
Lemma spre_flat l l' : spre l l' -> exists post, flat l' = flat l ++ post.
Proof.
  induction 1 as [l|s l l' H (post & E)|its its' l]; [now exists (flat l)| |].
  - exists post. unfold flat in *. cbn [map concat]. now rewrite E, app_assoc.
  - exists (its' ++ flat l). unfold flat. cbn [map concat seg_its]. now rewrite app_nil_r, app_assoc.
Qed.
Lemma spre_call l l' : spre l l' -> forall q c r its, nth_error l q = Some (Call c r its) -> nth_error l' q = Some (Call c r its) /\ firstn q l = firstn q l' /\ firstn (S q) l = firstn (S q) l'.
Proof.
  induction 1 as [l|s l l' H IH|its its' l]; intros q c r its0 E; [destruct q; discriminate E| |destruct q as [|[|q]]; discriminate E].
  destruct q as [|q]; cbn in E; [injection E as ->; auto|]. destruct (IH _ _ _ _ E) as (A & B & C). split; [exact A|]. split; [cbn; now rewrite B|]. change (s :: firstn (S q) l = s :: firstn (S q) l'). now rewrite C.
Qed.
Lemma spre_code l l' : spre l l' -> forall q its, nth_error l q = Some (Code its) -> firstn q l = firstn q l' /\ exists its', nth_error l' q = Some (Code (its ++ its')).
Proof.
  induction 1 as [l|s l l' H IH|its its' l]; intros q its0 E; [destruct q; discriminate E| |].
  - destruct q as [|q]; cbn in E |- *; [injection E as ->; split; [reflexivity|]; exists []; now rewrite app_nil_r|]. destruct (IH _ _ E) as (A & B). split; [now rewrite A|exact B].
  - destruct q as [|[|q]]; try discriminate E. cbn in E |- *. injection E as ->. eauto.
Qed.
Lemma accs_app a b : accs (a ++ b) = accs a ++ accs b.
Proof. apply flat_map_app. Qed.
Lemma spre_acts l l' : spre l l' -> exists h, acts l' = acts l ++ h.
Proof.
  induction 1 as [l|s l l' H (h & E)|its its' l]; [now exists (acts l)| |].
  - exists h. unfold acts in *. cbn [flat_map]. now rewrite E, app_assoc.
  - exists (map AMem (accs its') ++ acts l). unfold acts. cbn [flat_map]. now rewrite accs_app, map_app, app_nil_r, app_assoc.
Qed.

(* ---- graphs ---- *)
Definition kept (G : graph) (x : eid) : Prop := (snd x < length (items G (fst x)))%nat.
Record cut (G G' : graph) : Prop := {
  ct_thr : forall t, spre (g_thr G t) (g_thr G' t);
  ct_init : g_init G = g_init G';
  ct_rf : forall b x y, g_rf G b x y <-> g_rf G' b x y /\ kept G x /\ kept G y;
  ct_co : forall b x y, g_co G b x y <-> g_co G' b x y /\ kept G x /\ kept G y;
  ct_closed : forall b w r, g_rf G' b w r -> kept G r -> kept G w
}.
Lemma ct_mono {A} (R R' : A -> A -> Prop) x y : (forall x y, R x y -> R' x y) -> clos_trans _ R x y -> clos_trans _ R' x y.
Proof. intros H. induction 1 as [x y Q|x y z _ I1 _ I2]; [apply Relation_Operators.t_step; auto|exact (Relation_Operators.t_trans _ _ _ _ _ I1 I2)]. Qed.
Lemma crt_mono {A} (R R' : A -> A -> Prop) x y : (forall x y, R x y -> R' x y) -> clos_refl_trans _ R x y -> clos_refl_trans _ R' x y.
Proof. intros H. induction 1 as [x y Q|x|x y z _ I1 _ I2]; [apply rt_step; auto|apply rt_refl|exact (rt_trans _ _ _ _ _ I1 I2)]. Qed.

Section C.
Context (G G' : graph) (K : cut G G').
Lemma ct_items t : exists post, items G' t = items G t ++ post.
Proof. exact (spre_flat _ _ (ct_thr _ _ K t)). Qed.
Lemma ct_ev x v : ev_at G x v <-> ev_at G' x v /\ kept G x.
Proof.
  unfold ev_at, at_, kept. destruct (ct_items (fst x)) as (post & ->). split.
  - intros H. split; [now apply pf_nth|]. exact (pf_lt _ _ _ H).
  - intros [H Lt]. now rewrite pf_nth' in H.
Qed.
Lemma ct_call t q c r its : call_at G t q c r its -> call_at G' t q c r its.
Proof. intros H. exact (proj1 (spre_call _ _ (ct_thr _ _ K t) _ _ _ _ H)). Qed.
Lemma ct_base t q c r its : call_at G t q c r its -> base G t q = base G' t q /\ base G t (S q) = base G' t (S q).
Proof. intros H. destruct (spre_call _ _ (ct_thr _ _ K t) _ _ _ _ H) as (_ & A & B). unfold base. now rewrite A, B. Qed.
Lemma ct_plain x v : plain_at G x v -> plain_at G' x v.
Proof.
  intros (q & its & i & Hq & A & E). destruct (spre_code _ _ (ct_thr _ _ K (fst x)) _ _ Hq) as (B & its' & Hq'). exists q, (its ++ its'), i. split; [exact Hq'|]. split; [now apply pf_nth|]. unfold base in *. now rewrite <- B.
Qed.
Lemma ct_reads x b : reads_b G x b <-> reads_b G' x b /\ kept G x.
Proof. split; [intros (v & A & H); apply ct_ev in A; destruct A as [A B]; split; [exists v; auto|exact B]|intros [(v & A & H) B]; exists v; split; [apply ct_ev; auto|exact H]]. Qed.
Lemma ct_writes x b : writes_b G x b <-> writes_b G' x b /\ kept G x.
Proof. split; [intros (v & A & H); apply ct_ev in A; destruct A as [A B]; split; [exists v; auto|exact B]|intros [(v & A & H) B]; exists v; split; [apply ct_ev; auto|exact H]]. Qed.
Lemma ct_acc x b : acc_b G x b -> acc_b G' x b.
Proof. intros (v & A & H). apply ct_ev in A. exists v. split; [apply A|exact H]. Qed.
Lemma ct_rmw x y : rmw_pair G x y -> rmw_pair G' x y.
Proof. intros [E H]. split; [exact E|]. destruct (ct_items (fst x)) as (post & ->). now apply pf_rmw. Qed.
Lemma ct_solid x : solid G x -> solid G' x.
Proof. intros (v & A & H). apply ct_ev in A. exists v. split; [apply A|]. destruct H as [H|[H|(y & H)]]; auto. right. right. exists y. now apply ct_rmw. Qed.
Lemma ct_fr b x y : fr G b x y <-> fr G' b x y /\ kept G x /\ kept G y.
Proof.
  split.
  - intros (A & B & H). apply ct_reads in A. apply ct_writes in B. destruct A as [A Kx], B as [B Ky]. split; [|auto]. split; [exact A|]. split; [exact B|]. intros w' F.
    apply (ct_co _ _ K b w' y). apply H. apply (ct_rf _ _ K). split; [exact F|]. split; [exact (ct_closed _ _ K _ _ _ F Kx)|exact Kx].
  - intros ((A & B & H) & Kx & Ky). split; [apply ct_reads; auto|]. split; [apply ct_writes; auto|]. intros w' F. apply (ct_rf _ _ K) in F. destruct F as (F & Kw & _). apply (ct_co _ _ K). auto.
Qed.
Lemma ct_com b x y : com G b x y -> com G' b x y.
Proof. intros [H|[H|H]]; [left; now apply (ct_rf _ _ K) in H|right; left; now apply (ct_co _ _ K) in H|right; right; now apply ct_fr in H]. Qed.
Lemma ct_coi x y : coi G x y -> coi G' x y.
Proof. intros [E (b & H)]. split; [exact E|]. exists b. now apply (ct_co _ _ K) in H. Qed.
Lemma ct_locl x y : loc_lo G x y -> loc_lo G' x y.
Proof.
  intros [w u v P A B C D E|w R E|b r v R F A B].
  - apply ct_ev in A. apply ct_ev in B. apply ll_rel with w u v; try tauto. exact (ct_mono _ _ _ _ ct_coi E).
  - apply ll_rmw with w; [now apply ct_rmw|]. exact (ct_mono _ _ _ _ ct_coi E).
  - apply ct_ev in A. apply ll_acq with b r v; [now apply ct_rmw|now apply (ct_rf _ _ K) in F|tauto|exact B].
Qed.
Context (T : arch).
Lemma ct_tlo x y : tlo T G x y -> tlo T G' x y.
Proof. intros [E [H|H]]; split; try exact E; [left; destruct (ct_items (fst x)) as (post & ->); now apply pf_lo|right; now apply ct_locl]. Qed.
Lemma ct_tfence x y : tfence T G x y -> tfence T G' x y.
Proof. intros [E H]; split; [exact E|]. destruct (ct_items (fst x)) as (post & ->). now apply pf_fenced. Qed.
Lemma ct_tffence x y : tffence T G x y -> tffence T G' x y.
Proof. intros [E H]; split; [exact E|]. destruct (ct_items (fst x)) as (post & ->). now apply pf_ffenced. Qed.
Lemma ct_ob x y : ob T G x y -> ob T G' x y.
Proof. intros [H|(A & B & C & b & H)]; [left; now apply ct_tlo|right]. split; [exact A|]. split; [now apply ct_solid|]. split; [now apply ct_solid|]. exists b. now apply ct_com. Qed.
Lemma ct_rfe x y : rfe G x y -> rfe G' x y.
Proof. intros [A (b & H)]. split; [exact A|]. exists b. now apply (ct_rf _ _ K) in H. Qed.
Lemma ct_fre x y : fre G x y -> fre G' x y.
Proof. intros [A (b & H)]. split; [exact A|]. exists b. now apply ct_fr in H. Qed.
Lemma ct_hb x y : hb T G x y -> hb T G' x y.
Proof. intros [H|H]; [left; now apply ct_tlo|right; now apply ct_rfe]. Qed.
Lemma ct_hbs x y : hbs T G x y -> hbs T G' x y.
Proof. apply crt_mono. exact ct_hb. Qed.
Lemma ct_pb x y : prop_base T G x y -> prop_base T G' x y.
Proof.
  intros (z & H & B). exists z. split; [|now apply ct_hbs]. destruct H as [H|(u & H1 & H2)]; [left; now apply ct_tfence|right]. exists u. split; [now apply ct_rfe|now apply ct_tfence].
Qed.
Lemma ct_isw x : is_w G x -> is_w G' x.
Proof. intros (v & A & H). apply ct_ev in A. exists v. split; [apply A|exact H]. Qed.
Lemma ct_prop x y : prop T G x y -> prop T G' x y.
Proof.
  intros [(A & B & C)|(z & A & u & B & w & C & D)]; [left; split; [now apply ct_pb|]; split; now apply ct_isw|right].
  exists z. split; [refine (crt_mono _ _ _ _ _ A); intros p q (b & H); exists b; now apply ct_com|]. exists u. split; [exact (crt_mono _ _ _ _ ct_pb B)|]. exists w. split; [now apply ct_tffence|now apply ct_hbs].
Qed.
Lemma ct_sane : sane G' -> sane G.
Proof.
  intros S. constructor.
  - intros b w r H. apply (ct_rf _ _ K) in H. destruct H as (H & Kw & Kr). destruct (rf_wf _ S _ _ _ H) as (v & u & A & B & C & D & E & F & Q). exists v, u. split; [apply ct_ev; auto|]. split; [exact B|]. split; [exact C|]. split; [apply ct_ev; auto|auto].
  - intros b w w' r H H'. apply (ct_rf _ _ K) in H. apply (ct_rf _ _ K) in H'. destruct H as [H _], H' as [H' _]. exact (rf_one _ S _ _ _ _ H H').
  - intros b r u A W C. apply ct_ev in A. destruct A as [A Kr]. rewrite (ct_init _ _ K). destruct (rf_some _ S _ _ _ A W C) as [(w & F)|(N & E)].
    + left. exists w. apply (ct_rf _ _ K). split; [exact F|]. split; [exact (ct_closed _ _ K _ _ _ F Kr)|exact Kr].
    + right. split; [|exact E]. intros w F. apply (ct_rf _ _ K) in F. destruct F as [F _]. exact (N w F).
  - intros b x y H. apply (ct_co _ _ K) in H. destruct H as (H & Kx & Ky). destruct (co_wf _ S _ _ _ H) as [A B]. split; apply ct_writes; auto.
  - intros b x y z A B. apply (ct_co _ _ K) in A. apply (ct_co _ _ K) in B. apply (ct_co _ _ K). destruct A as (A & ? & ?), B as (B & ? & ?). split; [exact (co_trans _ S _ _ _ _ A B)|auto].
  - intros b x y A B Ne. apply ct_writes in A. apply ct_writes in B. destruct A as [A Kx], B as [B Ky]. destruct (co_total _ S b x y A B Ne); [left|right]; apply (ct_co _ _ K); auto.
  - intros b x H. apply (coherent _ S b x). revert H. apply ct_mono. intros p q [(A & B & C)|H]; [left; split; [exact A|]; split; now apply ct_acc|right; now apply ct_com].
  - intros b r w w' R F C. apply ct_fr in F. apply (ct_co _ _ K) in C. destruct F as [F _], C as [C _]. exact (atomic_rmw _ S b r w w' (ct_rmw _ _ R) F C).
Qed.
Lemma ct_execution : execution T G' -> execution T G.
Proof.
  intros [Ec Es Em]. constructor; [|now apply ct_sane|].
  - intros t q c r its H. exact (Ec _ _ _ _ _ (ct_call _ _ _ _ _ H)).
  - destruct (arch_mca T); [intros x H; exact (Em x (ct_mono _ _ _ _ ct_ob H))|]. destruct Em as [E1 E2 E3 E4 E5]. constructor.
    + intros x H. exact (E1 x (ct_mono _ _ _ _ ct_hb H)).
    + intros x (y & A & z & B & C). apply (E2 x). exists y. split; [now apply ct_fre|]. exists z. split; [now apply ct_prop|now apply ct_hbs].
    + intros x H. apply (E3 x). revert H. apply ct_mono. intros p q [(b & H)|H]; [left; exists b; now apply (ct_co _ _ K) in H|right; now apply ct_prop].
    + intros b b' x y H A B. apply (ct_co _ _ K) in H. apply ct_writes in A. apply ct_writes in B. apply (ct_co _ _ K). destruct H as (H & ? & ?). split; [|auto]. apply (E4 b); tauto.
    + intros b b' x y S F A B. apply ct_fr in F. apply ct_reads in A. apply ct_writes in B. apply ct_fr. destruct F as (F & ? & ?). split; [|auto]. apply (E5 b); try tauto. now apply ct_solid.
Qed.
(* ---- what the calls find ---- *)
Lemma ct_read x t q c r its : call_at G t q c r its -> the_read G x t q its -> the_read G' x t q its.
Proof. intros C (E & i & Ei & R). destruct (ct_base _ _ _ _ _ C) as [B _]. split; [exact E|]. exists i. rewrite <- B. auto. Qed.
Lemma ct_write x t q c r its : call_at G t q c r its -> the_write G x t q its -> the_write G' x t q its.
Proof. intros C (E & i & Ei & R). destruct (ct_base _ _ _ _ _ C) as [B _]. split; [exact E|]. exists i. rewrite <- B. auto. Qed.
Lemma ct_awrite x t q c r its : call_at G t q c r its -> a_write G x t q its -> a_write G' x t q its.
Proof. intros C (E & i & Ei & R). destruct (ct_base _ _ _ _ _ C) as [B _]. split; [exact E|]. exists i. rewrite <- B. auto. Qed.
Lemma ct_carries b w w' : carries G b w w' -> carries G' b w w'.
Proof.
  induction 1 as [w|w w1 r1 w2 Ca IH F R W (t & q & c & v & its & C & St & Hr & Hw)]; [apply cr_head|]. apply (cr_rmw G' b w w1 r1 w2 IH); [now apply (ct_rf _ _ K) in F|now apply ct_rmw|now apply ct_writes in W|].
  exists t, q, c, v, its. split; [now apply ct_call|]. split; [exact St|]. split; [exact (ct_read _ _ _ _ _ _ C Hr)|exact (ct_write _ _ _ _ _ _ C Hw)].
Qed.
Lemma ct_takes p1 p2 : takes_from G p1 p2 -> takes_from G' p1 p2.
Proof.
  intros (c1 & r1 & its1 & c2 & r2 & its2 & w & w' & r & b & C1 & Rl & Hw & C2 & N & Aq & Hr & Ec & Ib & Ca & F). exists c1, r1, its1, c2, r2, its2, w, w', r, b.
  split; [now apply ct_call|]. split; [exact Rl|]. split; [exact (ct_awrite _ _ _ _ _ _ C1 Hw)|]. split; [now apply ct_call|]. split; [exact N|]. split; [exact Aq|]. split; [exact (ct_read _ _ _ _ _ _ C2 Hr)|].
  split; [exact Ec|]. split; [exact Ib|]. split; [now apply ct_carries|now apply (ct_rf _ _ K) in F].
Qed.
Lemma ct_reaches p1 p2 : sc_reaches G p1 p2 -> sc_reaches G' p1 p2.
Proof. induction 1 as [p1 p2 H|p1 t q q' p2 H L R IH]; [apply sr_one; now apply ct_takes|exact (sr_more G' p1 t q q' p2 (ct_takes _ _ H) L IH)]. Qed.
Lemma takes_calls (H : graph) p1 p2 : takes_from H p1 p2 -> (exists c r its, call_at H (fst p1) (snd p1) c r its) /\ (exists c r its, call_at H (fst p2) (snd p2) c r its).
Proof. intros (c1 & r1 & its1 & c2 & r2 & its2 & w & w' & r & b & C1 & _ & _ & C2 & _). eauto 10. Qed.
Lemma reaches_calls (H : graph) p1 p2 : sc_reaches H p1 p2 -> (exists c r its, call_at H (fst p1) (snd p1) c r its) /\ (exists c r its, call_at H (fst p2) (snd p2) c r its).
Proof. induction 1 as [p1 p2 Q|p1 t q q' p2 Q L R IH]; [now apply takes_calls|]. split; [apply (takes_calls _ _ _ Q)|apply IH]. Qed.
Lemma ct_before d t q c r its : call_at G t q c r its -> before G d t q <-> before G' d t q.
Proof. intros C. destruct (ct_base _ _ _ _ _ C) as [B _]. unfold before. now rewrite B. Qed.
Lemma ct_after d t q c r its : call_at G t q c r its -> after G d t q <-> after G' d t q.
Proof. intros C. destruct (ct_base _ _ _ _ _ C) as [_ B]. unfold after. now rewrite B. Qed.
Lemma ct_schb d e : sc_happens_before G d e -> sc_happens_before G' d e.
Proof.
  intros [P|(t1 & q1 & t2 & q2 & B & R & A)]; [now left|right]. exists t1, q1, t2, q2. destruct (reaches_calls _ _ _ R) as [(c1 & r1 & i1 & C1) (c2 & r2 & i2 & C2)]. cbn [fst snd] in *.
  split; [now apply (ct_before _ _ _ _ _ _ C1)|]. split; [now apply ct_reaches|now apply (ct_after _ _ _ _ _ _ C2)].
Qed.
End C.

(* ---- cutting at a position of each thread ---- *)
Fixpoint cutl (k : nat) (l : list seg) : list seg :=
  match l with
  | [] => []
  | Call c r its :: l' => if (length its <=? k)%nat then Call c r its :: cutl (k - length its) l' else []
  | Code its :: l' => if (length its <=? k)%nat then Code its :: cutl (k - length its) l' else [Code (firstn k its)]
  end.
Lemma firstn_le {A} (l : list A) k k' : (k <= k')%nat -> firstn k' l = firstn k l ++ firstn (k' - k) (skipn k l).
Proof. revert k k'. induction l as [|a l IH]; intros [|k] [|k'] H; try lia; try reflexivity; [cbn; now rewrite firstn_nil|]. cbn. f_equal. apply IH. lia. Qed.
Lemma cutl_mono l : forall k k', (k <= k')%nat -> spre (cutl k l) (cutl k' l).
Proof.
  induction l as [|[c r its|its] l IH]; intros k k' H; cbn; [constructor| |].
  - destruct (Nat.leb_spec (length its) k) as [L|L]; [|constructor]. rewrite (proj2 (Nat.leb_le _ _)) by lia. apply sp_cons, IH. lia.
  - destruct (Nat.leb_spec (length its) k) as [L|L]; [rewrite (proj2 (Nat.leb_le _ _)) by lia; apply sp_cons, IH; lia|]. destruct (Nat.leb_spec (length its) k') as [L'|L'].
    + rewrite <- (firstn_skipn k its) at 2. constructor.
    + rewrite (firstn_le its k k' H). constructor.
Qed.
Lemma cutl_spre l : forall k, spre (cutl k l) l.
Proof.
  induction l as [|[c r its|its] l IH]; intros k; cbn; [constructor| |].
  - destruct (Nat.leb_spec (length its) k); [apply sp_cons, IH|constructor].
  - destruct (Nat.leb_spec (length its) k); [apply sp_cons, IH|]. rewrite <- (firstn_skipn k its) at 2. constructor.
Qed.
(* the position is not inside a call *)
Definition aligned (k : nat) (l : list seg) : Prop :=
  forall q c r its, nth_error l q = Some (Call c r its) -> (k <= length (flat (firstn q l)) \/ length (flat (firstn q l)) + length its <= k)%nat.
Lemma cutl_len l : forall k, aligned k l -> (k <= length (flat l))%nat -> length (flat (cutl k l)) = k.
Proof.
  induction l as [|s l IH]; intros k A H; [cbn in *; lia|]. unfold flat in H. cbn [map concat] in H. rewrite app_length in H. change (concat (map seg_its l)) with (flat l) in H.
  assert ((length (seg_its s) <= k)%nat -> aligned (k - length (seg_its s)) l) as A'.
  { intros L q c r its E. specialize (A (S q) c r its E). cbn [firstn] in A. unfold flat in A. cbn [map concat] in A. rewrite app_length in A. change (concat (map seg_its (firstn q l))) with (flat (firstn q l)) in A. lia. }
  destruct s as [c r its|its]; cbn [seg_its cutl] in *; destruct (Nat.leb_spec (length its) k) as [L|L].
  - unfold flat. cbn [map concat seg_its]. rewrite app_length. change (concat (map seg_its (cutl (k - length its) l))) with (flat (cutl (k - length its) l)). rewrite IH; [lia|auto|lia].
  - specialize (A O c r its eq_refl). cbn in A |- *. lia.
  - unfold flat. cbn [map concat seg_its]. rewrite app_length. change (concat (map seg_its (cutl (k - length its) l))) with (flat (cutl (k - length its) l)). rewrite IH; [lia|auto|lia].
  - unfold flat. cbn [map concat seg_its]. rewrite app_nil_r, firstn_length. lia.
Qed.
