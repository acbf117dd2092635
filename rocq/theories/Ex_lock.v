(* Executions that meet the hypotheses of C38: two threads that take and give back the same lock, one after the other, on RISC-V, PowerPC, AArch64. *)
From Verif Require Import Interleave CallLink Prop_sc Ex_graph Ex_sc Ex_mp SeqCst Prop_order Examples Prop_mp Prop_hb Prop_lock.
From Verif Require Import Arch_riscv Arch_powerpc Arch_aarch64.

(* each thread: a call that reads [rv] and then writes [wv], a plain access of data ([d] writes, [d'] reads it), a call that writes [uv] *)
Section LK.
Context (T : arch) (c1 c2 : op) (r1 r2 : rval) (its1 its2 : list item) (i1 k1 i2 : nat) (rv wv uv d d' : ev) (m0 : mem).
Notation L := (length its1).
Definition wpos (x : eid) : Prop := (fst x < 2)%nat /\ (snd x = k1 \/ snd x = S L + i2)%nat.
Definition lkg : graph := mkgraph
  (fun t => match t with O => [Call c1 r1 its1; Code [IE d]; Call c2 r2 its2] | S O => [Call c1 r1 its1; Code [IE d']; Call c2 r2 its2] | _ => [] end) m0
  (fun b x y => (x = (O, L) /\ y = (1%nat, L) /\ covers d b) \/ (x = (0, S L + i2)%nat /\ y = (1%nat, i1) /\ covers rv b))
  (fun b x y => covers rv b /\ wpos x /\ wpos y /\ lexlt x y).
Hypothesis (H1 : call_items T c1 its1 r1) (H2 : call_items T c2 its2 r2).
Hypothesis (A1 : at_ its1 i1 rv) (A2 : at_ its1 k1 wv) (Lt : (i1 < k1)%nat) (U : forall j u, at_ its1 j u -> j = i1 \/ j = k1) (O2 : only its2 i2 uv).
Hypothesis (W1 : e_w rv = false) (W2 : e_w wv = true) (W3 : e_w uv = true) (W4 : e_w d = true) (W5 : e_w d' = false) (X1 : e_x uv = false) (X2 : e_x d = false).
Hypothesis (Rw : e_a wv = e_a rv /\ e_n wv = e_n rv) (Ru : e_a uv = e_a rv /\ e_n uv = e_n rv) (Rd : e_a d' = e_a d /\ e_n d' = e_n d) (Dis : e_a d + e_n d <= e_a rv).
Hypothesis (By1 : forall b, covers rv b -> e_b rv b = m0 b) (By2 : forall b, covers rv b -> e_b uv b = e_b rv b) (By3 : forall b, covers d b -> e_b d b = e_b d' b).

Lemma kL : (k1 < L)%nat.
Proof. exact (at_lt _ _ _ A2). Qed.
Lemma lk_items t : (t < 2)%nat -> items lkg t = its1 ++ IE (match t with O => d | _ => d' end) :: its2 ++ [].
Proof. intros H. clear - H. destruct t as [|[|t]]; [reflexivity|reflexivity|lia]. Qed.
Lemma lk_ev x w : ev_at lkg x w -> (fst x < 2)%nat /\ ((snd x = i1 /\ w = rv) \/ (snd x = k1 /\ w = wv) \/ (snd x = L /\ w = match fst x with O => d | _ => d' end) \/ (snd x = S L + i2 /\ w = uv)%nat).
Proof.
  destruct x as [t k]. unfold ev_at. cbn [fst snd]. intros H. assert (t < 2)%nat as Ht.
  { destruct t as [|[|t]]; [lia|lia|]. unfold at_, items, flat in H. cbn in H. destruct k; discriminate H. }
  split; [exact Ht|]. rewrite lk_items, app_nil_r in H by exact Ht. unfold at_ in *. destruct (Nat.lt_ge_cases k L) as [Q|Q].
  - rewrite nth_error_app1 in H by exact Q. destruct (U _ _ H) as [->| ->]; [rewrite A1 in H|rewrite A2 in H]; injection H as <-; auto.
  - rewrite nth_error_app2 in H by exact Q. destruct (k - L)%nat as [|j] eqn:E; cbn [nth_error] in H.
    + injection H as <-. right. right. left. split; [lia|reflexivity].
    + destruct O2 as [B1 B2]. pose proof (B2 _ _ H) as ->. unfold at_ in B1. rewrite B1 in H. injection H as <-. right. right. right. split; [lia|reflexivity].
Qed.
Lemma lk_r t : (t < 2)%nat -> ev_at lkg (t, i1) rv.
Proof. intros H. unfold ev_at, at_. cbn [fst snd]. rewrite lk_items, nth_error_app1; auto. pose proof kL. lia. Qed.
Lemma lk_w t : (t < 2)%nat -> ev_at lkg (t, k1) wv.
Proof. intros H. unfold ev_at, at_. cbn [fst snd]. rewrite lk_items, nth_error_app1; auto. exact kL. Qed.
Lemma lk_d t : (t < 2)%nat -> ev_at lkg (t, L) (match t with O => d | _ => d' end).
Proof. intros H. clear - H. unfold ev_at, at_. cbn [fst snd]. rewrite lk_items, nth_error_app2 by auto. now rewrite Nat.sub_diag. Qed.
Lemma lk_u t : (t < 2)%nat -> ev_at lkg (t, S L + i2)%nat uv.
Proof. intros H. unfold ev_at, at_. cbn [fst snd]. rewrite lk_items, app_nil_r, nth_error_app2 by (auto; lia). replace (S L + i2 - L)%nat with (S i2) by lia. exact (proj1 O2). Qed.
Lemma lk_wpos x b : writes_b lkg x b -> (wpos x /\ covers rv b) \/ (x = (O, L) /\ covers d b).
Proof.
  destruct x as [t k]. intros (w & A & W & C). destruct (lk_ev _ _ A) as (Ht & E). cbn [fst snd] in *. unfold wpos, covers in *. cbn [fst snd].
  destruct E as [[-> ->]|[[-> ->]|[[-> ->]|[-> ->]]]]; [congruence|left|right|left]; [split; [split; [exact Ht|auto]|lia]| |split; [split; [exact Ht|auto]|lia]].
  destruct t; [split; [reflexivity|exact C]|congruence].
Qed.
Lemma wpos_w x b : wpos x -> covers rv b -> writes_b lkg x b.
Proof.
  destruct x as [t k]. intros [Ht E] C. cbn [fst snd] in *. unfold covers in *. destruct E as [->| ->]; [exists wv|exists uv]; (split; [auto using lk_w, lk_u|]; split; [assumption|unfold covers; lia]).
Qed.
Lemma lk_rpos x b : reads_b lkg x b -> ((fst x < 2)%nat /\ snd x = i1 /\ covers rv b) \/ (x = (1%nat, L) /\ covers d b).
Proof.
  destruct x as [t k]. intros (w & A & W & C). destruct (lk_ev _ _ A) as (Ht & E). cbn [fst snd] in *. unfold covers in *.
  destruct E as [[-> ->]|[[-> ->]|[[-> ->]|[-> ->]]]]; try congruence; [left; auto|right]. destruct t as [|[|t]]; [congruence|split; [reflexivity|lia]|lia].
Qed.
Lemma lk_rf b x y : g_rf lkg b x y -> lexlt x y.
Proof. intros [(-> & -> & _)|(-> & -> & _)]; left; cbn; lia. Qed.
Lemma lk_fr b r w : fr lkg b r w -> (fst r < 2)%nat /\ snd r = i1 /\ covers rv b /\ wpos w /\ lexlt r w.
Proof.
  intros (R & Ww & H). destruct (lk_rpos _ _ R) as [(Ht & E & C)|[-> C]].
  - split; [exact Ht|]. split; [exact E|]. split; [exact C|]. destruct (lk_wpos _ _ Ww) as [[P _]|[_ Q]]; [|unfold covers in *; lia]. split; [exact P|].
    destruct r as [t k]. cbn [fst snd] in *. subst k. destruct w as [t' k']. destruct P as [P1 P2]. cbn [fst snd] in *. unfold lexlt. cbn [fst snd].
    destruct t as [|[|t]]; [clear - P2 Lt A2; pose proof kL; lia| |lia]. destruct (H (0, S L + i2)%nat) as (_ & _ & _ & Q); [right; auto|]. unfold lexlt in Q. cbn [fst snd] in Q. pose proof kL. lia.
  - exfalso. destruct (H (O, L)) as (Q & _); [left; auto|]. unfold covers in *. lia.
Qed.
Lemma lk_com b x y : com lkg b x y -> lexlt x y.
Proof. intros [H|[(_ & _ & _ & H)|H]]; [exact (lk_rf _ _ _ H)|exact H|apply (lk_fr _ _ _ H)]. Qed.
Lemma lex_or x y : x <> y -> lexlt x y \/ lexlt y x.
Proof. destruct x as [t k], y as [t' k']. intros N. unfold lexlt. cbn [fst snd]. destruct (Nat.lt_trichotomy t t') as [Q|[->|Q]]; auto. destruct (Nat.lt_trichotomy k k') as [Q|[->|Q]]; auto. congruence. Qed.
Lemma lk_rmw r w : rmw_pair lkg r w -> (fst r < 2)%nat /\ snd r = i1 /\ w = (fst r, k1).
Proof.
  destruct r as [t k], w as [t' k']. intros (E & v & A & W & X & Q & R & N). cbn [fst snd] in *. subst t'. assert (ev_at lkg (t, k') v) as A' by exact A.
  destruct (lk_ev _ _ A') as (Ht & E). cbn [fst snd] in *. assert (k' = k1 /\ v = wv) as [-> ->]. { destruct E as [[-> ->]|[[-> ->]|[[-> ->]|[-> ->]]]]; try congruence; auto. destruct t; congruence. }
  split; [exact Ht|]. split; [|reflexivity]. destruct R as (u & B & Wu). assert (ev_at lkg (t, k) u) as B' by exact B. destruct (lk_ev _ _ B') as (_ & F). cbn [fst snd] in F. pose proof kL.
  destruct F as [[-> ->]|[[-> ->]|[[-> ->]|[-> ->]]]]; [reflexivity|lia|lia|lia].
Qed.
Lemma lk_sane : sane lkg.
Proof.
  constructor.
  - intros b w r [(-> & -> & C)|(-> & -> & C)]; [exists d, d'|exists uv, rv].
    + split; [exact (lk_d O ltac:(lia))|]. split; [auto|]. split; [auto|]. split; [exact (lk_d 1%nat ltac:(lia))|]. split; [auto|]. split; [|auto]. unfold covers in *. lia.
    + split; [exact (lk_u O ltac:(lia))|]. split; [auto|]. split; [unfold covers in *; lia|]. split; [exact (lk_r 1%nat ltac:(lia))|]. split; [auto|]. split; [auto|auto].
  - intros b w w' r [(-> & -> & C)|(-> & -> & C)] [(-> & E & C')|(-> & E & C')]; auto; unfold covers in *; lia.
  - intros b r u A W C. destruct (lk_rpos r b) as [(Ht & E & C')|[-> C']]; [exists u; auto| |].
    + destruct r as [t k]. cbn [fst snd] in *. subst k. destruct t as [|[|t]]; [right| |lia].
      * split; [intros w [(_ & Q & _)|(_ & Q & _)]; discriminate Q|]. pose proof (lk_r O ltac:(lia)) as Q. assert (u = rv) as -> by (unfold ev_at, at_ in *; congruence). apply By1, C'.
      * left. exists (0, S L + i2)%nat. right. auto.
    + left. exists (O, L). left. auto.
  - intros b x y (C & P & Q & _). split; now apply wpos_w.
  - intros b x y z (C & P & Q & R) (_ & _ & P' & R'). split; [exact C|]. split; [exact P|]. split; [exact P'|]. unfold lexlt in *. lia.
  - intros b x y A B N. destruct (lk_wpos _ _ A) as [[P C]|[-> C]], (lk_wpos _ _ B) as [[P' C']|[-> C']]; try (unfold covers in *; lia); [|congruence].
    destruct (lex_or x y N) as [Q|Q]; [left|right]; repeat (split; [assumption|]); exact Q.
  - intros b. apply lex_no. intros x y [[P _]|C]; [exact (mp_po _ _ P)|exact (lk_com _ _ _ C)].
  - intros b r w w' P F (_ & _ & _ & Q). destruct (lk_rmw _ _ P) as (Hr & Er & ->). destruct (lk_fr _ _ _ F) as (_ & _ & _ & (B1 & B2) & Z). destruct r as [t k], w' as [t' k']. unfold lexlt in *. cbn [fst snd] in *.
    pose proof kL. subst k. lia.
Qed.
Lemma lk_tlo x y : tlo T lkg x y -> lexlt x y.
Proof. exact (tlo_lex T lkg x y lk_sane). Qed.
Lemma lk_hbs x y : hbs T lkg x y -> x = y \/ lexlt x y.
Proof. apply lex_rt. intros a b [H|[_ [k H]]]; [exact (lk_tlo _ _ H)|exact (lk_rf _ _ _ H)]. Qed.
Lemma lk_tf x y : tfence T lkg x y -> lexlt x y.
Proof. intros [E (a & b & k & _ & _ & K & _)]. right. split; auto. lia. Qed.
Lemma lk_pb x y : prop_base T lkg x y -> lexlt x y.
Proof.
  intros (z & H & K). apply lk_hbs in K. assert (lexlt x z) as Q.
  { destruct H as [H|(k & [_ [b H]] & H')]; [exact (lk_tf _ _ H)|]. apply lk_rf in H. apply lk_tf in H'. unfold lexlt in *. lia. }
  destruct K as [<-|K]; auto. unfold lexlt in *. lia.
Qed.
Lemma lk_prop x y : prop T lkg x y -> lexlt x y.
Proof.
  intros [(H & _)|(z & H & k & K & l & Q & M)]; [exact (lk_pb _ _ H)|].
  assert (x = z \/ lexlt x z) as A by (revert H; apply lex_rt; intros a b [c H]; exact (lk_com _ _ _ H)).
  assert (z = k \/ lexlt z k) as B by (revert K; apply lex_rt; exact lk_pb).
  assert (lexlt k l) as C by (destruct Q as [E (_ & _ & n & K1 & _)]; right; split; auto; lia).
  apply lk_hbs in M. destruct A as [<-|A], B as [<-|B], M as [<-|M]; auto; unfold lexlt in *; lia.
Qed.
Theorem lk_execution : execution T lkg.
Proof.
  constructor; [|exact lk_sane|].
  - intros t q c r its H. destruct t as [|[|t]], q as [|[|[|q]]]; cbn in H; try discriminate H; try (destruct q; discriminate H); injection H as <- <- <-; auto.
  - destruct (arch_mca T).
    + unfold mca_ok. apply lex_no. intros x y [H|(_ & _ & _ & b & H)]; [exact (lk_tlo _ _ H)|exact (lk_com _ _ _ H)].
    + constructor.
      * apply lex_no. intros x y [H|[_ [k H]]]; [exact (lk_tlo _ _ H)|exact (lk_rf _ _ _ H)].
      * intros x (y & [_ [b F]] & z & P & Q). pose proof (lk_com b x y (or_intror (or_intror F))). apply lk_prop in P. apply lk_hbs in Q. destruct Q as [<-|Q]; unfold lexlt in *; lia.
      * apply lex_no. intros x y [[b (_ & _ & _ & H)]|H]; [exact H|exact (lk_prop _ _ H)].
      * intros b b' x y (C & P & Q & R) Wx Wy. destruct (lk_wpos _ _ Wx) as [[_ C']|[-> C']]; [split; auto|]. exfalso. destruct P as [_ P]. cbn [snd] in P. pose proof kL. lia.
      * intros b b' x y _ F Rx Wy. pose proof (lk_fr _ _ _ F) as (Hx & Ex & C & P & Q). split; [exact Rx|]. split; [exact Wy|].
        destruct (lk_wpos _ _ Wy) as [[_ C']|[-> C']]; [|exfalso; destruct P as [_ P]; cbn [snd] in P; pose proof kL; lia].
        intros w' [(_ & -> & C2)|(-> & -> & _)]; [cbn [snd] in Ex; pose proof kL; lia|]. destruct F as (_ & _ & F). destruct (F (0, S L + i2)%nat) as (_ & F1 & F2 & F3); [right; auto|]. split; [exact C'|]. auto.
Qed.
Lemma lk_base t : (t < 2)%nat -> base lkg t 0 = O /\ base lkg t 1 = L /\ base lkg t 2 = S L /\ base lkg t 3 = (S L + length its2)%nat.
Proof. intros H. clear - H. destruct t as [|[|t]]; [| |lia]; unfold base, flat; cbn; rewrite ?app_length; cbn; rewrite ?app_length; cbn; lia. Qed.
Context (a n : Z) (E1 : lock_call T a n c1) (E2 : unlock_call a n c2) (Tk : taken r1) (Ea : e_a rv = a) (En : e_n rv = n) (Z0 : forall b, a <= b < a + n -> m0 b = 0).
Lemma lk_not : ~ unlock_call a n c1.
Proof. destruct E1 as [(o & -> & _)|(s & f & [->| ->] & _)]; intros (o' & Q & _); discriminate Q. Qed.
Theorem lk_holds t : (t < 2)%nat -> holds T lkg a n t 0 2.
Proof.
  intros H. clear - H E1 E2 Tk. split; [lia|]. split; [exists c1, r1, its1; split; [destruct t as [|[|t]]; [reflexivity|reflexivity|lia]|auto]|].
  split; [exists c2, r2, its2; split; [destruct t as [|[|t]]; [reflexivity|reflexivity|lia]|auto]|].
  intros q c r its Hq C. assert (q = 1%nat) as -> by lia. destruct t as [|[|t]]; [discriminate C|discriminate C|lia].
Qed.
Theorem lk_client : lock_client T lkg a n.
Proof.
  constructor.
  - exact Z0.
  - intros [t k] b Hb Ww. destruct (lk_wpos _ _ Ww) as [[[Ht [P|P]] _]|[_ C]]; [| |exfalso; unfold covers in *; clear - C Hb Dis Ea; lia]; cbn [fst snd] in *; destruct (lk_base t Ht) as (B0 & B1 & B2 & _).
    + exists t, O, c1, r1, its1. split; [destruct t as [|[|t]]; [reflexivity|reflexivity|lia]|]. split; [split; [reflexivity|]; exists k1; cbn [snd]; rewrite B0; split; [exact P|]; exists wv; auto|].
      destruct E1 as [(o & -> & _)|(s & f & [->| ->] & _)]; reflexivity.
    + exists t, 2%nat, c2, r2, its2. split; [destruct t as [|[|t]]; [reflexivity|reflexivity|lia]|]. split; [split; [reflexivity|]; exists i2; cbn [snd]; rewrite B2; split; [exact P|]; exists uv; split; [apply O2|auto]|].
      destruct E2 as (o & -> & _); reflexivity.
  - intros t q c r its C _. destruct t as [|[|t]], q as [|[|[|q]]]; cbn in C; try discriminate C; try (destruct q; discriminate C); injection C as <- <- <-; auto; right; right; (split; [exact E2|]); exists O; apply lk_holds; lia.
  - exists 2%nat. intros [|[|t]] Q; [lia|lia|reflexivity].
Qed.
Theorem lk_inside t : (t < 2)%nat -> inside lkg (t, L) t 0 2.
Proof. intros H. clear - H. destruct (lk_base t H) as (B0 & B1 & B2 & _). split; (split; [reflexivity|]); cbn [snd]; lia. Qed.
End LK.

(* u32 lock at 0x2000; each thread: swap(1, Acquire) = 0, a plain access of the u32 at 0x1000, store(0, Release) *)
Definition lk_take := OSwap 4 Acquire 0x2000 1.
Definition lk_give := OStore 4 Release 0x2000 0.
Definition lk_regs (v : Z) : regs := fun r => match r with Dst | Src => 0x2000 | Val => v | _ => 0 end.
Definition lk_of (T : arch) : graph :=
  let k1 := its_of T lk_take st_os (lk_regs 1) in let k2 := its_of T lk_give st_os (lk_regs 0) in
  lkg lk_take lk_give (RVal 0) RUnit k1 k2 (nth 0 (evs k1 0) O) (nth 1 (evs k1 0) O) (hd O (evs k2 0)) (nth_ev k1 (nth 0 (evs k1 0) O)) (data true) (data false) (fun _ => 0).
Definition lk_met (T : arch) : Prop := t_ie T = None /\ t_wf T /\ execution T (lk_of T) /\ lock_client T (lk_of T) 0x2000 4 /\
  holds T (lk_of T) 0x2000 4 0 0 2 /\ holds T (lk_of T) 0x2000 4 1 0 2 /\
  exists x y, inside (lk_of T) x 0 0 2 /\ inside (lk_of T) y 1 0 2 /\ ev_at (lk_of T) x (data true) /\ ev_at (lk_of T) y (data false).
Definition ok2 (its : list item) (a : Z) : bool :=
  match evs its 0 with [i; k] => match nth_error its i, nth_error its k with
    Some (IE v), Some (IE w) => negb (e_w v) && e_w w && (e_a v =? a) && (e_n v =? 4) && (e_a w =? a) && (e_n w =? 4) && Nat.ltb i k | _, _ => false end | _ => false end.
Lemma ok2_ok its a : ok2 its a = true -> let i := nth 0 (evs its 0) O in let k := nth 1 (evs its 0) O in let v := nth_ev its i in let w := nth_ev its k in
  at_ its i v /\ at_ its k w /\ (i < k)%nat /\ (forall j u, at_ its j u -> j = i \/ j = k) /\ e_w v = false /\ e_w w = true /\ e_a v = a /\ e_n v = 4 /\ e_a w = a /\ e_n w = 4.
Proof.
  unfold ok2. intros H. destruct (evs its 0) as [|i [|k [|]]] eqn:E; try discriminate H. cbn [nth]. unfold nth_ev, at_. destruct (nth_error its i) as [[v| | |]|]; try discriminate H.
  destruct (nth_error its k) as [[w| | |]|]; try discriminate H. repeat (apply andb_prop in H; destruct H as [H ?]).
  split; [reflexivity|]. split; [reflexivity|]. split; [now apply Nat.ltb_lt|]. split.
  - intros j u A. pose proof (evs_in _ 0 _ _ A) as Q. rewrite E in Q. destruct Q as [Q|[Q|[]]]; cbn in Q; auto.
  - split; [now apply negb_true_iff|]. split; [assumption|]. repeat split; now apply Z.eqb_eq.
Qed.
Lemma lk_by T : t_wf T -> t_ie T = None -> call_items T lk_take (its_of T lk_take st_os (lk_regs 1)) (RVal 0) -> call_items T lk_give (its_of T lk_give st_os (lk_regs 0)) RUnit ->
  ok2 (its_of T lk_take st_os (lk_regs 1)) 0x2000 = true -> ok1 (its_of T lk_give st_os (lk_regs 0)) true 0x2000 = true ->
  (let k2 := its_of T lk_give st_os (lk_regs 0) in e_x (nth_ev k2 (hd O (evs k2 0)))) = false ->
  (let k1 := its_of T lk_take st_os (lk_regs 1) in forall b, 0x2000 <= b < 0x2004 -> e_b (nth_ev k1 (nth 0 (evs k1 0) O)) b = 0) ->
  (let k2 := its_of T lk_give st_os (lk_regs 0) in forall b, 0x2000 <= b < 0x2004 -> e_b (nth_ev k2 (hd O (evs k2 0))) b = 0) -> lk_met T.
Proof.
  cbv zeta. intros W Ie C1 C2 K1 K2 X By1 By2. apply ok2_ok in K1. apply ok1_ok in K2. cbv zeta in K1, K2.
  destruct K1 as (A1 & A2 & Lt & U & W1 & W2 & Ea & En & Ea' & En'), K2 as (O2 & W3 & Eu & Nu).
  assert (lock_call T 0x2000 4 lk_take) as Lc by (left; exists Acquire; split; reflexivity). assert (unlock_call 0x2000 4 lk_give) as Uc by (exists Release; split; reflexivity).
  split; [exact Ie|]. split; [exact W|]. unfold lk_of. cbv zeta. split.
  - eapply lk_execution; try eassumption; try reflexivity; try (split; congruence).
    + split; reflexivity.
    + rewrite Ea. cbn. lia.
    + intros b Hb. apply By1. unfold covers in Hb. rewrite Ea, En in Hb. exact Hb.
    + intros b Hb. unfold covers in Hb. rewrite Ea, En in Hb. rewrite (By1 b Hb). exact (By2 b Hb).
  - split.
    + eapply lk_client with (wv := nth_ev (its_of T lk_take st_os (lk_regs 1)) (nth 1 (evs (its_of T lk_take st_os (lk_regs 1)) 0) O)) (uv := nth_ev (its_of T lk_give st_os (lk_regs 0)) (hd O (evs (its_of T lk_give st_os (lk_regs 0)) 0)));
      try eassumption; try reflexivity; try (split; congruence). rewrite Ea. cbn. lia.
    + split; [eapply lk_holds; auto; reflexivity|]. split; [eapply lk_holds; auto; reflexivity|]. do 2 eexists. split; [eapply (lk_inside _ _ _ _ _ _ _ _ _ _ _ _ _ 0); lia|].
      split; [eapply (lk_inside _ _ _ _ _ _ _ _ _ _ _ _ _ 1); lia|].
      split; [eapply (lk_d _ _ _ _ _ _ _ _ _ _ _ _ _ 0); lia|eapply (lk_d _ _ _ _ _ _ _ _ _ _ _ _ _ 1); lia].
Qed.
Ltac lk_meet := apply lk_by; [|reflexivity|item|item|vm_compute; reflexivity|vm_compute; reflexivity|vm_compute; reflexivity|cbv zeta; bytes4 0x2000|cbv zeta; bytes4 0x2000].
Example lk_riscv : lk_met (Riscv rv64).
Proof. lk_meet. right; split; [reflexivity|left; reflexivity]. Qed.
Example lk_powerpc : lk_met (Powerpc pp64).
Proof. lk_meet. right. reflexivity. Qed.
Example lk_aarch64 : lk_met (Aarch64 aa0).
Proof. lk_meet. exact Logic.I. Qed.
