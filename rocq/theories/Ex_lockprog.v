(* A program that meets the hypotheses of C42_program, with an execution of it, on RISC-V, PowerPC, AArch64: data protected by a lock. *)
From Verif Require Import Interleave CallLink Prop_sc Ex_graph Ex_sc Ex_mp SeqCst Prop_order Examples Prop_mp Prop_hb Merge Prop_drf Prop_drfsc Prop_drfprog Prop_lock Prop_locksc Prop_lockprog Ex_lock Ex_locksc Ex_drfprog.
From Verif Require Import Arch_riscv Arch_powerpc Arch_aarch64.

(* each thread: if L.swap(1, Acquire) == 0, an access to the data (thread 0 writes it, thread 1 reads it), then L.store(0, Release) *)
Definition touches (t : nat) (v : ev) : Prop := match t with O => v = data true | _ => reads_data v end.
Definition crit (t : nat) (h : list act) : Prop :=
  h = [] \/ (t < 2)%nat /\ ((exists z, h = [ACall lk_take (RVal z)]) \/ exists v, touches t v /\ (h = [ACall lk_take (RVal 0); AMem v] \/ h = [ACall lk_take (RVal 0); AMem v; ACall lk_give RUnit])).
Lemma touch_data t v : touches t v -> e_a v = 0x1000 /\ e_n v = 4 /\ e_t v = false.
Proof. destruct t; cbn; [intros ->; auto|intros (_ & A & B & C); auto]. Qed.
Lemma crit_in t h a : crit t h -> In a h -> (exists z, a = ACall lk_take (RVal z)) \/ a = ACall lk_give RUnit \/ exists v, touches t v /\ a = AMem v.
Proof. intros [->|(_ & [(z & ->)|(v & Hv & [->| ->])])] I; cbn in I; intuition (subst; eauto). Qed.
Lemma crit_last t h a : crit t (h ++ [a]) -> (h = [] /\ exists z, a = ACall lk_take (RVal z)) \/ (exists v, h = [ACall lk_take (RVal 0)] /\ a = AMem v) \/ exists v, h = [ACall lk_take (RVal 0); AMem v] /\ a = ACall lk_give RUnit.
Proof.
  intros [E|(_ & [(z & E)|(v & _ & [E|E])])]; destruct h as [|x [|y [|w h]]]; cbn in E; try discriminate E; injection E; intros; subst; eauto 6; try (destruct h; discriminate).
Qed.
Lemma crit_program T : lock_program T the_lock crit.
Proof.
  constructor.
  - intros t h h' [E|(Lt & [(z & E)|(v & Hv & [E|E])])]; [apply app_eq_nil in E; left; apply E| | |]; destruct h as [|x [|y [|w h]]]; cbn in E; try discriminate E; try (now left); right; (split; [exact Lt|]); injection E; intros; subst; eauto 6; try discriminate.
    destruct h; [|discriminate]. eauto 6.
  - intros t h c r H I. exists 0x2000, 4. split; [split; reflexivity|]. destruct (crit_in _ _ _ H I) as [(z & E)|[E|(v & _ & E)]]; try discriminate E; injection E as -> _; [left; left; exists Acquire; split; reflexivity|right; right; exists Release; split; reflexivity].
  - intros t h a n c r H U. destruct (crit_last _ _ _ H) as [(-> & z & E)|[(v & -> & E)|(v & -> & E)]]; [injection E as -> _; destruct U as (o & E & _); discriminate E|discriminate E|]. injection E as -> ->.
    exists [], lk_take, (RVal 0), [AMem v]. split; [reflexivity|]. destruct U as (o & E & _). injection E as <- _ <-. split; [left; exists Acquire; split; reflexivity|]. split; [reflexivity|]. intros c2 r2 [Q|[]]. discriminate Q.
  - intros a n a' n' [-> ->] [-> ->]. now left.
  - intros t h v a n b H I [-> ->] Hb Cv. destruct (crit_in _ _ _ H I) as [(z & E)|[E|(v' & Hv & E)]]; try discriminate E. injection E as ->. destruct (touch_data _ _ Hv) as (A & B & _). unfold covers in Cv. lia.
  - intros t h v H I. destruct (crit_in _ _ _ H I) as [(z & E)|[E|(v' & Hv & E)]]; try discriminate E. injection E as ->. apply (touch_data _ _ Hv).
Qed.
Lemma crit_thr t h a : crit t (a :: h) -> (t < 2)%nat.
Proof. intros [E|(L & _)]; [discriminate E|exact L]. Qed.
Lemma take_step e z m m' : lock_step e (ACall lk_take (RVal z)) m m' -> z = 0 -> rd e m 0x2000 4 = 0 /\ meq m' (wr e m 0x2000 4 1).
Proof. intros H ->. cbn in H. destruct H as [A B]. split; [now symmetry|exact B]. Qed.
Lemma merged_inv {A} (step : A -> mem -> mem -> Prop) H m mf : merged step H m mf -> (forall t, H t = []) \/
  exists P' t a l m', H t = a :: l /\ P' t = l /\ (forall t', t' <> t -> P' t' = H t') /\ step a m m' /\ merged step P' m' mf.
Proof. intros [P m0 E|P P' t a l m0 m' mf' Z B C D E]; [now left|right]. exists P', t, a, l, m'. auto. Qed.
(* no interleaving lets both threads take the lock *)
Lemma crit_free e : sc_race_free (lock_step e) crit (fun _ => 0).
Proof.
  intros H mf M HP t1 t2 v1 v2 b Ne H1 H2. exfalso. assert (forall t v, crit t (H t ++ [AMem v]) -> (t < 2)%nat /\ H t = [ACall lk_take (RVal 0)]) as K.
  { intros t v Q. split; [destruct (H t); apply (crit_thr _ _ _ Q)|]. destruct (crit_last _ _ _ Q) as [(_ & z & E)|[(v' & E & _)|(v' & _ & E)]]; [discriminate E|exact E|discriminate E]. }
  destruct (K _ _ H1) as [L1 E1], (K _ _ H2) as [L2 E2]. clear H1 H2 K. assert (forall t, (t < 2)%nat -> H t = [ACall lk_take (RVal 0)]) as Ha.
  { intros t L. destruct (Nat.eq_dec t t1) as [->|]; [exact E1|]. replace t with t2 by lia. exact E2. }
  assert (forall t, (2 <= t)%nat -> H t = []) as Hb by (intros t L; destruct (HP t) as [Q|(Q & _)]; [exact Q|lia]). clear t1 t2 v1 v2 Ne L1 L2 E1 E2 HP.
  destruct (merged_inv _ _ _ _ M) as [E|(P' & t & a & l & m & E & E' & Eo & St & M')]; [specialize (Ha O ltac:(lia)); rewrite E in Ha; discriminate Ha|]. assert (t < 2)%nat as Lt by (destruct (Nat.lt_ge_cases t 2) as [Q|Q]; [exact Q|rewrite (Hb t Q) in E; discriminate E]).
  rewrite (Ha t Lt) in E. injection E as <- <-. destruct (take_step _ _ _ _ St eq_refl) as [_ Em]. destruct (merged_inv _ _ _ _ M') as [Ez|(P2 & t' & a & l & m2 & E & _ & _ & St2 & _)].
  - specialize (Eo (1 - t)%nat ltac:(lia)). rewrite (Ha (1 - t)%nat ltac:(lia)), Ez in Eo. discriminate Eo.
  - destruct (Nat.eq_dec t' t) as [->|Ne]; [rewrite E' in E; discriminate E|]. rewrite (Eo t' Ne) in E. destruct (Nat.lt_ge_cases t' 2) as [Q|Q]; [|rewrite (Hb t' Q) in E; discriminate E]. rewrite (Ha t' Q) in E. injection E as <- <-.
    destruct (take_step _ _ _ _ St2 eq_refl) as [Z _]. rewrite (rd_ext e m (wr e (fun _ => 0) 0x2000 4 1) 0x2000 4) in Z by (intros i _; apply Em). rewrite rd_wr_any in Z by lia. vm_compute in Z. discriminate Z.
Qed.
(* thread 0 goes first *)
Definition lk_time (n : nat) (x : eid) : nat := (3 * fst x + (if (snd x <? n)%nat then 0 else if (snd x =? n)%nat then 1 else 2))%nat.
Section LK.
Context (c1 c2 : op) (r1 r2 : rval) (its1 its2 : list item) (i1 k1 i2 : nat) (rv d d' : ev) (m0 : mem).
Notation G := (lkg c1 c2 r1 r2 its1 its2 i1 k1 i2 rv d d' m0).
Notation L := (length its1).
Lemma lk_len t : (t < 2)%nat -> length (items G t) = (S L + length its2)%nat.
Proof. intros H. destruct t as [|[|t]]; [| |lia]; unfold items, flat; cbn; rewrite !app_length; cbn; rewrite app_nil_r; lia. Qed.
Lemma lk_base t : (t < 2)%nat -> base G t 0 = O /\ base G t 1 = L /\ base G t 2 = S L /\ base G t 3 = (S L + length its2)%nat.
Proof. intros H. destruct t as [|[|t]]; [| |lia]; unfold base, flat; cbn; rewrite ?app_nil_r, ?app_length; cbn; rewrite ?app_nil_r; lia. Qed.
Lemma lk_incall x t q : in_call G x t q -> (fst x = t /\ t < 2)%nat /\ (q = 0 /\ snd x < L \/ q = 2 /\ L < snd x)%nat.
Proof.
  intros (Et & (c & r & its & C) & A & B). assert (t < 2)%nat as Lt by (unfold call_at in C; destruct t as [|[|t]]; [lia|lia|destruct q; discriminate C]). split; [auto|]. destruct (lk_base t Lt) as (B0 & B1 & B2 & B3).
  assert (q = 0 \/ q = 2)%nat as [->| ->] by (unfold call_at in C; destruct t as [|[|t]]; [| |lia]; destruct q as [|[|[|q]]]; auto; try discriminate C; destruct q; discriminate C); [left|right]; lia.
Qed.
Lemma lk_incall_of x : exists_at G x -> snd x <> L -> (snd x < L -> in_call G x (fst x) 0)%nat /\ (L < snd x -> in_call G x (fst x) 2)%nat.
Proof.
  intros E Ne. unfold exists_at in E. assert (fst x < 2)%nat as Lt by (destruct (fst x) as [|[|t]]; [lia|lia|cbn in E; lia]). rewrite lk_len in E by exact Lt. destruct (lk_base _ Lt) as (B0 & B1 & B2 & B3).
  split; intros Q; (split; [reflexivity|]); (split; [destruct (fst x) as [|[|t]]; [| |lia]; do 3 eexists; reflexivity|]); lia.
Qed.
Lemma lk_in_time : (forall b x y, g_rf G b x y -> fst x = 0 /\ fst y = 1)%nat -> in_time G (lk_time L).
Proof.
  intros Hrf. assert (forall x, exists_at G x -> fst x < 2)%nat as Lx by (intros x E; unfold exists_at in E; destruct (fst x) as [|[|t]]; [lia|lia|cbn in E; lia]).
  unfold lk_time. constructor.
  - intros x y _ _ [E Lt]. rewrite E. destruct (Nat.ltb_spec (snd x) L), (Nat.ltb_spec (snd y) L), (Nat.eqb_spec (snd x) L), (Nat.eqb_spec (snd y) L); lia.
  - intros x y t q I1 I2. destruct (lk_incall _ _ _ I1) as [[E1 _] K1], (lk_incall _ _ _ I2) as [[E2 _] K2]. rewrite E1, E2. destruct (Nat.ltb_spec (snd x) L), (Nat.ltb_spec (snd y) L), (Nat.eqb_spec (snd x) L), (Nat.eqb_spec (snd y) L); lia.
  - intros x y Ex Ey E. destruct (Nat.ltb_spec (snd x) L) as [A|A], (Nat.ltb_spec (snd y) L) as [B|B], (Nat.eqb_spec (snd x) L) as [C|C], (Nat.eqb_spec (snd y) L) as [D|D]; try lia.
    + right. exists (fst x), O. split; [apply (lk_incall_of x Ex C); lia|]. assert (fst y = fst x) as Q by lia. rewrite <- Q. apply (lk_incall_of y Ey D). lia.
    + left. destruct x, y. cbn [fst snd] in *. f_equal; lia.
    + right. exists (fst x), 2%nat. split; [apply (lk_incall_of x Ex C); lia|]. assert (fst y = fst x) as Q by lia. rewrite <- Q. apply (lk_incall_of y Ey D). lia.
  - intros b w r H. destruct (Hrf _ _ _ H) as [-> ->]. destruct (snd w <? L)%nat, (snd w =? L)%nat, (snd r <? L)%nat, (snd r =? L)%nat; lia.
Qed.
End LK.
Definition lprog_met (T : arch) : Prop := t_ie T = None /\ t_wf T /\ lock_program T the_lock crit /\ sc_race_free (lock_step (t_e T)) crit (g_init (lk_of T)) /\ own_locks (lk_of T) the_lock /\ execution T (lk_of T) /\
  (forall t, crit t (acts (g_thr (lk_of T) t))) /\ (exists N, forall t, (N <= t)%nat -> g_thr (lk_of T) t = []) /\ (exists f, in_time (lk_of T) f) /\
  exists x y, conflict (lk_of T) x y /\ fst x <> fst y.
Lemma lprog_of T : lk_met T -> lprog_met T.
Proof.
  intros M. destruct (ls_of T M) as (_ & _ & _ & _ & _ & Cf). destruct M as (Ie & W & X & K & _). split; [exact Ie|]. split; [exact W|]. split; [apply crit_program|]. split; [apply crit_free|].
  split; [constructor; [intros a n b [-> ->]; exact (lk_init _ _ _ _ K b)|intros a n w b [-> ->]; exact (lk_writes _ _ _ _ K w b)]|]. split; [exact X|].
  split; [|split; [exact (lk_finite _ _ _ _ K)|split; [eexists; apply lk_in_time; intros b x y [(-> & -> & _)|(-> & -> & _)]; split; reflexivity|exact Cf]]].
  intros [|[|t]]; [right; split; [lia|]; right; exists (data true); split; [reflexivity|right; reflexivity]|right; split; [lia|]; right; exists (data false); split; [repeat split|right; reflexivity]|now left].
Qed.
Example lprog_riscv : lprog_met (Riscv rv64).
Proof. exact (lprog_of _ lk_riscv). Qed.
Example lprog_powerpc : lprog_met (Powerpc pp64).
Proof. exact (lprog_of _ lk_powerpc). Qed.
Example lprog_aarch64 : lprog_met (Aarch64 aa0).
Proof. exact (lprog_of _ lk_aarch64). Qed.
