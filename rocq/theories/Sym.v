(* Proof machinery: symbolic execution of blocks against [atomic_fx].  No specifications here. *)
From Verif Require Export Steps Ordering.

Section G.
  Context {A : Type} (e : endian) (f : fn A) (spec : mem -> mem -> A -> Prop).
  Let p := f_prog f.

  Definition Post (t : list xstep) (sf : tst) : Prop :=
    (at_exit p sf -> exists r, f_out f (rf sf) = Some r /\ xlin spec t r) /\ xpending spec t.
  Definition Quiet (r : A) (t : list xstep) (sf : tst) : Prop :=
    Forall no_access t /\ (at_exit p sf -> f_out f (rf sf) = Some r).
  (* [L]: the memory of the last step that read, if nothing was written: the candidate for a read-only linearization point *)
  Definition PL (L : list mem) (t : list xstep) (sf : tst) : Prop :=
    Post t sf \/ exists m0 r, In m0 L /\ spec m0 m0 r /\ Quiet r t sf.

  Definition G (n : nat) (Phi : list xstep -> tst -> Prop) (s : tst) : Prop :=
    forall os, length os = n -> wf_oracles os ->
      match xrun e p os s with None => False | Some (t, sf) => Phi t sf end.

  Lemma G_mono n (Phi Psi : list xstep -> tst -> Prop) s :
    (forall t sf, Phi t sf -> Psi t sf) -> G n Phi s -> G n Psi s.
  Proof. intros H G1 os Hl Hw. specialize (G1 os Hl Hw). destruct (xrun e p os s) as [[t sf]|]; auto. Qed.

  Lemma lin_here t x r : (xrd x || xwr x)%bool = true -> spec (xm x) (xm' x) r -> Forall no_access t -> xlin spec (x :: t) r.
  Proof. intros Hx Hs Ht. exists [], x, t. repeat split; auto. Qed.
  Lemma lin_later t x r : no_write x -> xlin spec t r -> xlin spec (x :: t) r.
  Proof.
    intros Hm (t1 & y & t2 & -> & H1 & H2 & H3 & H4).
    exists (x :: t1), y, t2. repeat split; auto.
  Qed.
  Lemma Post_silent x t sf : no_write x -> Post t sf -> Post (x :: t) sf.
  Proof.
    intros Hm [H1 H2]. split.
    - intros He. destruct (H1 He) as (r & Ho & Hl). exists r. split; auto using lin_later.
    - destruct H2 as [H2 | [r H2]]; [left; constructor; auto|right; exists r; auto using lin_later].
  Qed.
  Lemma Post_here x t sf r : (xrd x || xwr x)%bool = true -> spec (xm x) (xm' x) r -> Quiet r t sf -> Post (x :: t) sf.
  Proof.
    intros Hx Hs [H1 H2]. split.
    - intros He. exists r. split; auto using lin_here.
    - right. exists r. auto using lin_here.
  Qed.

  Lemma nth_not_exit i s : nth_error p (pc s) = Some i -> ~ at_exit p s.
  Proof.
    intros H E. unfold at_exit in E. assert (nth_error p (pc s) <> None) as N by (rewrite H; discriminate).
    apply nth_error_Some in N. lia.
  Qed.

  Lemma step_Q n r s i : nth_error p (pc s) = Some i ->
    (forall k o, n = S k -> wf_mem (o_mem o) ->
       match exec e p i o s with
       | Some (s', m') => (wrote e i o s || reads_i i)%bool = false /\ G k (Quiet r) s'
       | None => False end) ->
    G n (Quiet r) s.
  Proof.
    intros Hi H os Hl Hw. destruct os as [|o os]; cbn [length] in Hl.
    - cbn. split; auto. intros E. exfalso. eapply nth_not_exit; eauto.
    - inversion Hw as [|? ? Ho Hw']; subst. cbn [xrun]. fold p. rewrite Hi.
      specialize (H (length os) o eq_refl Ho). destruct (exec e p i o s) as [[s' m']|] eqn:X; [|exact H].
      destruct H as [Hm HG]. specialize (HG os eq_refl Hw'). destruct (xrun e p os s') as [[t sf]|]; [|exact HG].
      apply orb_false_iff in Hm. destruct Hm as [Hm Hr]. destruct HG as [HG1 HG2]. split; auto. constructor; auto. split; auto. split; cbn; auto.
      eapply wrote_no; eauto.
  Qed.

  Lemma exit_Q n r s : nth_error p (pc s) = None -> (f_out f (rf s) = Some r) -> G n (Quiet r) s.
  Proof.
    intros Hi H os Hl Hw. destruct os as [|o os]; cbn [xrun]; [split; auto|]. fold p. rewrite Hi. split; auto.
  Qed.

  Lemma step_P n L s i : nth_error p (pc s) = Some i ->
    (forall k o, n = S k -> wf_mem (o_mem o) ->
       match exec e p i o s with
       | Some (s', m') => (wrote e i o s = false /\ G k (PL (if reads_i i then [o_mem o] else L)) s') \/
                          (exists r, spec (o_mem o) m' r /\ (wrote e i o s || reads_i i)%bool = true /\ G k (Quiet r) s')
       | None => False end) ->
    G n (PL L) s.
  Proof.
    intros Hi H os Hl Hw. destruct os as [|o os]; cbn [length] in Hl.
    - cbn. left. split; [intros E; exfalso; eapply nth_not_exit; eauto|left; constructor].
    - inversion Hw as [|? ? Ho Hw']; subst. cbn [xrun]. fold p. rewrite Hi.
      specialize (H (length os) o eq_refl Ho). destruct (exec e p i o s) as [[s' m']|] eqn:X; [|exact H].
      destruct H as [(Hm & HG)|(r & Hr & Ha & HG)]; specialize (HG os eq_refl Hw'); destruct (xrun e p os s') as [[t sf]|]; auto.
      + pose proof (wrote_no _ _ _ _ _ _ _ X Hm) as ->. assert (no_write (step_of e i o s (o_mem o))) as Nw by (split; auto).
        destruct HG as [HG|(m0 & r & Hin & H1 & H2)]; [left; now apply Post_silent|]. destruct (reads_i i) eqn:Ri.
        * destruct Hin as [<-|[]]. left. eapply Post_here; [cbn; now rewrite Ri|exact H1|exact H2].
        * right. exists m0, r. split; auto. split; auto. destruct H2 as [H2 H3]. split; auto. constructor; auto. split; auto.
      + left. eapply Post_here; [cbn; now rewrite orb_comm|exact Hr|exact HG].
  Qed.

  (* choose, afterwards, the last step that read as the linearization point *)
  Lemma commit n L s m0 r : In m0 L -> spec m0 m0 r -> G n (Quiet r) s -> G n (PL L) s.
  Proof. intros Hin Hs. apply G_mono. intros t sf H. right. exists m0, r. auto. Qed.

  Lemma weaken n L s : G n (PL []) s -> G n (PL L) s.
  Proof. apply G_mono. intros t sf [H|(m0 & r & [] & _)]. left; exact H. Qed.

  Lemma atomic_intro :
    (forall n s0, pc s0 = O -> f_in f (rf s0) -> G n (PL []) s0) -> atomic_fx e f spec.
  Proof.
    intros H os s0 Hw Hp Hin. specialize (H (length os) s0 Hp Hin os eq_refl Hw).
    fold p. destruct (xrun e p os s0) as [[t sf]|]; auto. destruct H as [H|(m0 & r & [] & _)]. exact H.
  Qed.
End G.

Arguments upd f r v x /.
Arguments rd : simpl never. Arguments wr : simpl never. Arguments sext : simpl never. Arguments low : simpl never.

(* symbolic-execution step: reduce [exec] on the concrete instruction *)
Ltac cbnx := cbn [exec pc rf rs o_mem o_ok o_junk target find_fwd find_bwd skipn Nat.eqb upds upd map reg_beq
    op1 op2 op3 br1 br2 mov li and_ or_ xor_ andn_ beq_ bne_ beqz_ bnez_ extend f_prog f_in f_out f_clob
    nth_error length app fst snd wrote reads_i].

(* step with the trace memory remembered / not remembered *)
Ltac stp := eapply step_P; [cbnx; reflexivity | let k := fresh "k" in let o := fresh "o" in
   let Hk := fresh "Hk" in let Ho := fresh "Ho" in intros k o Hk Ho; cbnx ].
Ltac stq := eapply step_Q; [cbnx; reflexivity | let k := fresh "k" in let o := fresh "o" in
   let Hk := fresh "Hk" in let Ho := fresh "Ho" in intros k o Hk Ho; cbnx ].
Ltac sil := left; split; [reflexivity|].
Ltac silq := split; [reflexivity|].

(* run silent steps until something interesting happens *)
Ltac go := repeat (stp; sil).
Ltac goq := repeat (stq; silq).
Ltac done_q := apply exit_Q; [reflexivity|cbnx].
(* split a conditional produced by a branch or a store-conditional *)
Lemma sc_may_hit e m a n v : sc_may e m (Some [(a, n, v)]) a n = (rd e m a n =? v).
Proof. cbn. now rewrite !Z.eqb_refl. Qed.
Lemma scp_may_hit e m a n v1 v2 :
  scp_may e m (Some [(a, n, v1); (a + n, n, v2)]) a n = (rd e m a n =? v1) && (rd e m (a + n) n =? v2).
Proof.
  cbn [scp_may]. rewrite !Z.eqb_refl.
  destruct (rd e m a n =? v1), (rd e m (a + n) n =? v2); reflexivity.
Qed.
(* after [stp] on a store-conditional: two goals, success (with the memory equation [Eq]) and failure *)
Ltac sc_case Eq :=
  rewrite ?sc_may_hit, ?scp_may_hit;
  match goal with |- context [if ?b && (?x =? ?y) then _ else _] =>
    let Ok := fresh "Ok" in destruct (b && (x =? y)) eqn:Ok;
    [apply andb_true_iff in Ok; destruct Ok as [_ Eq]; apply Z.eqb_eq in Eq | clear Ok] end.
Ltac br_case H :=
  match goal with
  | |- context [if negb (?x =? ?y) then _ else _] => destruct (Z.eqb_spec x y) as [H|H]; cbn [negb]
  | |- context [if ?x =? ?y then _ else _] => destruct (Z.eqb_spec x y) as [H|H]
  end.
Ltac start f r := try apply fx_atomic; apply atomic_intro; let k := fresh "k0" in intros ? [k f r] Hpc Hin; cbn in Hpc; subst k; cbn [f_in rf] in Hin.
Ltac lin_at r0 := right; exists r0; split; [|split; [first [reflexivity|exact (orb_true_r _)|vm_compute; reflexivity]|]].

(* k' < k from the chain k = S k1, k1 = S k2, ... *)
Ltac lts := repeat match goal with H : ?k = S _ |- (_ < ?k)%nat => rewrite H; clear H
                              | H : ?k = S _ |- (_ < S ?k)%nat => rewrite H; clear H
                              | H : ?k = S ?k' |- _ => rewrite H; clear H end; repeat constructor.

Lemma cas_fail_spec e a n old new m : rd e m a n <> old -> cas_spec e a n old new m m (rd e m a n, false).
Proof. intros H. split; [reflexivity|]. split; auto using meq_refl. Qed.


Lemma ret_cas_ok n x v b : low (8 * n) x = v -> ret_cas n x (b2z b) = Some (v, b).
Proof. intros <-. destruct b; reflexivity. Qed.


Lemma casw_fail_spec e a n old new m : casw_spec e a n old new m m (rd e m a n, false).
Proof. split; [reflexivity|]. cbn. apply meq_refl. Qed.

(* refuting atomicity by one concrete run in constant memory *)
Lemma refute_cas e (f : fn (Z * bool)) a n old new os s0 m0 t sf x :
  wf_oracles os -> Forall (fun o => o_mem o = m0) os -> pc s0 = O -> f_in f (rf s0) ->
  run e (f_prog f) os s0 = Ran t sf -> Forall (fun st => fst st = m0) t ->
  at_exit (f_prog f) sf -> f_out f (rf sf) = Some (x, false) -> rd e m0 a n = old ->
  ~ atomic_fn e f (cas_spec e a n old new).
Proof.
  intros Hw Hm Hp Hi R Ht He Hf Ho H. specialize (H os s0 Hw Hp Hi). rewrite R in H. destruct H as [H _].
  destruct (H He) as (r & Hr & t1 & m & m' & t2 & -> & _ & _ & Hs). rewrite Hf in Hr. inversion Hr; subst r.
  apply Forall_app in Ht. destruct Ht as [_ Ht]. inversion Ht; subst. cbn in *. destruct Hs as [_ [Hs _]]. congruence.
Qed.

(* take the earlier silent step from memory [m0] as linearization point with result [r0] *)
Ltac in_l := first [cbn; tauto|exact (or_introl eq_refl)].
Ltac commit_at m0 r0 := apply (commit _ _ _ _ _ _ m0 r0); [in_l | | ].
Lemma load_spec_refl e a n m : load_spec e a n m m (rd e m a n).
Proof. split; [reflexivity|apply meq_refl]. Qed.
Lemma rd_low e m a n : wf_mem m -> 0 <= n -> low (8 * n) (rd e m a n) = rd e m a n.
Proof. intros. apply low_id. apply rd_range; auto. Qed.
Lemma rd_sext e m a n w : wf_mem m -> 0 < n -> 8 * n <= w -> low (8 * n) (sext (8 * n) w (rd e m a n)) = rd e m a n.
Proof. intros. rewrite sext_low by lia. apply rd_low; auto; lia. Qed.
Lemma wr_opnd e m a n v w x : 0 <= n -> opnd w (8 * n) v x -> meq (wr e m a n x) (wr e m a n v).
Proof. intros Hn [_ <-]. apply meq_sym, wr_low; lia. Qed.
(* loop lemma for the block in the goal: [Inv] at pc [h] *)
Ltac loop_inv h Inv Loop :=
  try apply fx_atomic; match goal with |- atomic_fx ?e ?g ?sp =>
    assert (forall k f r, Inv f -> G e g k (PL g sp []) (mkst h f r)) as Loop;
    [ let k := fresh "k" in induction k as [k IH] using lt_wf_ind; let f := fresh "f" in let r := fresh "r" in
      intros f r Hi; cbv beta in Hi | ] end.

(* witness for refutations: cell at 0 holds 2^31, register [Old] holds 2^31 zero-extended *)
Definition m_top (x : Z) : Z := if x =? 3 then 128 else 0.
Definition r_one (r0 : reg) (v : Z) : regs := fun r => if reg_beq r r0 then v else 0.

Ltac refute_top k :=
  eapply refute_cas with (os := repeat (mkor m_top true 0) k) (s0 := mkst 0 (r_one Old (2 ^ 31)) None) (m0 := m_top);
  [ apply Forall_forall; intros ? H; apply repeat_spec in H; subst; intros x; unfold m_top; cbn; destruct (x =? 3); lia
  | apply Forall_forall; intros ? H; apply repeat_spec in H; now subst
  | reflexivity
  | cbn; unfold opnd; repeat split; vm_compute; congruence
  | reflexivity | repeat constructor | reflexivity | vm_compute; reflexivity | vm_compute; reflexivity ].

(* case analysis of a dispatcher: |- dispatcher = Impl f -> ... *)
Ltac disp :=
  unfold with_table;
  repeat match goal with
  | |- (if ?b then _ else _) = Impl _ -> _ => let E := fresh "E" in destruct b eqn:E
  | |- match ?t with Some _ => _ | None => _ end = Impl _ -> _ => let E := fresh "E" in destruct t eqn:E
  end; try (intros X; discriminate X); let X := fresh "X" in intros X; injection X as <-.
Ltac beqs := repeat match goal with
  | E : (_ || _)%bool = true |- _ => apply orb_true_iff in E
  | E : (_ || _)%bool = false |- _ => apply orb_false_iff in E
  | E : (_ && _)%bool = true |- _ => apply andb_true_iff in E
  | E : (_ =? _) = true |- _ => apply Z.eqb_eq in E
  | E : (_ =? _) = false |- _ => apply Z.eqb_neq in E
  end.

Lemma junk_hi_low w k k' v j : 0 <= k' <= k -> k <= w -> low k' (junk_hi w k v j) = low k' v.
Proof.
  intros H1 H2. unfold junk_hi. rewrite low_low by lia. apply low_eq_bits; [lia|]. intros b Hb.
  rewrite concat_bits by (try apply low_range; lia). destruct (Z.ltb_spec b k); [|lia].
  rewrite low_bits by lia. destruct (Z.ltb_spec b k); [reflexivity|lia].
Qed.
Lemma junk_hi_bits w k v j b : 0 <= b < k -> k <= w -> Z.testbit (junk_hi w k v j) b = Z.testbit v b.
Proof. intros. apply (eq_low_bits k); [apply junk_hi_low; lia|lia]. Qed.
Lemma junk_hi_range w k v j : 0 <= w -> 0 <= junk_hi w k v j < 2 ^ w.
Proof. intros. unfold junk_hi. apply low_range; auto. Qed.

Lemma weaken_in {A} e (f : fn A) sp n L m s : In m L -> G e f n (PL f sp [m]) s -> G e f n (PL f sp L) s.
Proof.
  intros Hin. apply G_mono. intros t sf [H|(m0 & r & [<-|[]] & H)]; [left; exact H|right; exists m, r; auto].
Qed.
(* loop lemma where the block remembers one memory it has read *)
Ltac loop_inv_m h Inv Loop :=
  try apply fx_atomic; match goal with |- atomic_fx ?e ?g ?sp =>
    assert (forall k f r m, wf_mem m -> Inv m f -> G e g k (PL g sp [m]) (mkst h f r)) as Loop;
    [ let k := fresh "k" in induction k as [k IH] using lt_wf_ind; let f := fresh "f" in let r := fresh "r" in
      let m := fresh "m" in intros f r m Hm0 Hi; cbv beta in Hi | ] end.

Lemma some_eq {A} (x y : A) : x = y -> Some x = Some y.
Proof. intros ->. reflexivity. Qed.
Lemma some_pair {A B} (x y : A) (b : B) : x = y -> Some (x, b) = Some (y, b).
Proof. intros ->. reflexivity. Qed.

(* a stronger specification implements a weaker one *)
Lemma lin_mono {A} (sp sp' : mem -> mem -> A -> Prop) t r : (forall m m' x, sp m m' x -> sp' m m' x) -> lin sp t r -> lin sp' t r.
Proof. intros H (t1 & m & m' & t2 & E & H1 & H2 & H3). exists t1, m, m', t2. auto. Qed.
Lemma atomic_mono {A} e (f : fn A) (sp sp' : mem -> mem -> A -> Prop) :
  (forall m m' x, sp m m' x -> sp' m m' x) -> atomic_fn e f sp -> atomic_fn e f sp'.
Proof.
  intros H HA os s0 Hw Hp Hin. specialize (HA os s0 Hw Hp Hin). destruct (run e (f_prog f) os s0) as [t sf|]; auto.
  destruct HA as [H1 H2]. split.
  - intros E. destruct (H1 E) as (r & Hr & Hl). exists r. eauto using lin_mono.
  - destruct H2 as [H2|[r H2]]; [left; auto|right; exists r; eauto using lin_mono].
Qed.
Lemma xlin_mono {A} (sp sp' : mem -> mem -> A -> Prop) t r : (forall m m' x, sp m m' x -> sp' m m' x) -> xlin sp t r -> xlin sp' t r.
Proof. intros H (t1 & x & t2 & E & H1 & H2 & H3 & H4). exists t1, x, t2. auto 10. Qed.
Lemma fx_mono {A} e (f : fn A) (sp sp' : mem -> mem -> A -> Prop) :
  (forall m m' x, sp m m' x -> sp' m m' x) -> atomic_fx e f sp -> atomic_fx e f sp'.
Proof.
  intros H HA os s0 Hw Hp Hin. specialize (HA os s0 Hw Hp Hin). destruct (xrun e (f_prog f) os s0) as [[t sf]|]; auto.
  destruct HA as [H1 H2]. split.
  - intros E. destruct (H1 E) as (r & Hr & Hl). exists r. eauto using xlin_mono.
  - destruct H2 as [H2|[r H2]]; [left; auto|right; exists r; eauto using xlin_mono].
Qed.
Lemma casw_of_cas e (f : fn (Z * bool)) a n old new :
  atomic_fx e f (cas_spec e a n old new) -> atomic_fx e f (casw_spec e a n old new).
Proof. apply fx_mono. intros m m' [x b] [H1 H2]. split; auto. cbn in *. destruct b; tauto. Qed.

(* loop lemma where the reservation at the loop head is [rv] *)
Ltac loop_inv_r h rv Inv Loop :=
  try apply fx_atomic; match goal with |- atomic_fx ?e ?g ?sp =>
    assert (forall k f, Inv f -> G e g k (PL g sp []) (mkst h f rv)) as Loop;
    [ let k := fresh "k" in induction k as [k IH] using lt_wf_ind; let f := fresh "f" in
      intros f Hi; cbv beta in Hi | ] end.
Ltac loop_inv_rm h rv Inv Loop :=
  try apply fx_atomic; match goal with |- atomic_fx ?e ?g ?sp =>
    assert (forall k f m, wf_mem m -> Inv m f -> G e g k (PL g sp []) (mkst h f (rv m))) as Loop;
    [ let k := fresh "k" in induction k as [k IH] using lt_wf_ind; let f := fresh "f" in let m := fresh "m" in
      intros f m Hm0 Hi; cbv beta in Hi; cbv beta | cbv beta in * ] end.
