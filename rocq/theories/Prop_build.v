(* C34: what the build script tells the compiler. *)
From Coq Require Import String Ascii Bool ZArith Lia List.
From Verif Require Import Cfg Cfg_src Cfg_legacy Prop_cfg Build.
Import ListNotations.
Open Scope string_scope.

(** Specification: command-line arguments *)
Fixpoint join (sep : ascii) (l : list string) : string :=
  match l with [] => "" | [s] => s | s :: r => s ++ String sep (join sep r) end.
Definition free (c : ascii) (s : string) : Prop := forall a b, s <> a ++ String c b.
(* compiler arguments: -Ctarget-feature=i1,i2,... (or -C, target-feature=...), and others *)
Inductive arg := Features (glued : bool) (items : list string) | Other (s : string).
Definition text (a : arg) : string :=
  match a with Features g l => (if g then "-C" else "") ++ "target-feature=" ++ join "," l | Other s => s end.
Definition arg_ok (a : arg) : Prop :=
  match a with
  | Features _ l => l <> [] /\ Forall (fun i => free "," i /\ free unit_sep i) l
  | Other s => free unit_sep s /\ forall r, s <> "target-feature=" ++ r /\ s <> "-Ctarget-feature=" ++ r
  end.
(* what one argument says about a feature, in order: +name on, -name off *)
Definition settings (name : string) (a : arg) : list bool :=
  match a with
  | Features _ l => flat_map (fun i => if i =? "+" ++ name then [true] else if i =? "-" ++ name then [false] else []) l
  | Other _ => []
  end.

(** Specification: versions *)
Definition date_le (a b : date) : Prop :=
  (year a < year b \/ year a = year b /\ (month a < month b \/ month a = month b /\ day a <= day b))%Z.
(* release order: the nightlies of 1.m by commit date, then 1.m *)
Definition version_le (v w : version) : Prop :=
  (minor v < minor w \/ minor v = minor w /\
     match nightly v, nightly w with true, true => date_le (commit_date v) (commit_date w) | true, false | false, false => True | false, true => False end)%Z.

(** Strings *)
Lemma app_nil s : s ++ "" = s.
Proof. induction s; cbn; congruence. Qed.
Lemma app_assoc a b c : (a ++ b) ++ c = a ++ b ++ c.
Proof. induction a; cbn; congruence. Qed.
Lemma app_inj_l a b c : a ++ b = a ++ c -> b = c.
Proof. induction a; cbn; [auto|]. intros [= H]. auto. Qed.
Lemma free_cons c a s : free c (String a s) <-> a <> c /\ free c s.
Proof.
  split.
  - intros F. split; [intros ->; exact (F "" s eq_refl)|]. intros x y ->. exact (F (String a x) y eq_refl).
  - intros [N F] x y Q. destruct x as [|x0 x]; cbn in Q; injection Q as ->; [congruence|]. subst. exact (F x y eq_refl).
Qed.
Lemma free_nil c : free c "".
Proof. intros [|? ?] ?; discriminate. Qed.
Lemma free_app c a b : free c (a ++ b) <-> free c a /\ free c b.
Proof.
  induction a as [|x a IH]; cbn; [split; [split; [apply free_nil|auto]|tauto]|]. rewrite !free_cons, IH. tauto.
Qed.
Lemma split_free c s : free c s -> split c s = [s].
Proof. induction s as [|a s IH]; [reflexivity|]. rewrite free_cons. intros [N F]. cbn. apply Ascii.eqb_neq in N. now rewrite N, IH. Qed.
Lemma split_app c s t : free c s -> split c (s ++ String c t) = s :: split c t.
Proof.
  induction s as [|a s IH]; cbn; [now rewrite Ascii.eqb_refl|]. rewrite free_cons. intros [N F]. apply Ascii.eqb_neq in N. now rewrite N, IH.
Qed.
Lemma split_join c l : l <> [] -> Forall (free c) l -> split c (join c l) = l.
Proof.
  intros N F. induction F as [|s l Hs F IH]; [congruence|]. destruct l as [|t l]; [now apply split_free|].
  change (join c (s :: t :: l)) with (s ++ String c (join c (t :: l))). rewrite split_app, IH; [reflexivity|discriminate|auto].
Qed.
Lemma join_split c s : join c (split c s) = s /\ Forall (free c) (split c s) /\ split c s <> [].
Proof.
  induction s as [|a s (J & F & N)]; [cbn; repeat split; [constructor; [apply free_nil|constructor]|discriminate]|]. cbn. destruct (Ascii.eqb_spec a c) as [->|A].
  - repeat split; [|constructor; [apply free_nil|auto]|discriminate]. destruct (split c s); [congruence|]. cbn [join] in *. cbn. congruence.
  - destruct (split c s) as [|x l]; [congruence|]. inversion F as [|? ? F1 F2]; subst. repeat split; [|constructor; [apply free_cons; auto|auto]|discriminate]. destruct l; cbn in *; congruence.
Qed.
Lemma free_join c d l : c <> d -> free c (join d l) <-> Forall (free c) l.
Proof.
  intros N. induction l as [|s [|t l] IH].
  - split; [constructor|intros; apply free_nil].
  - cbn. split; [intros; constructor; auto|intros F; now inversion F].
  - change (join d (s :: t :: l)) with (s ++ String d (join d (t :: l))). rewrite free_app, free_cons, IH. split; [intros (? & ? & ?); constructor; auto|intros F; inversion F; subst; repeat split; auto].
Qed.
Lemma strip_app p s : strip_prefix p (p ++ s) = Some s.
Proof. induction p as [|a p IH]; [destruct s; reflexivity|]. cbn. now rewrite Ascii.eqb_refl. Qed.
Lemma strip_some p s r : strip_prefix p s = Some r -> s = p ++ r.
Proof.
  revert s. induction p as [|a p IH]; intros s; cbn; [destruct s; congruence|]. destruct s as [|b s]; [discriminate|]. destruct (Ascii.eqb_spec a b) as [->|]; [|discriminate].
  intros H. now rewrite (IH s H).
Qed.
Lemma strip_none p s : strip_prefix p s = None -> forall r, s <> p ++ r.
Proof. intros H r ->. now rewrite strip_app in H. Qed.

(** Theorems *)
(* arguments *)
Lemma fold_last {A} (f : A -> list bool) l has : fold_left (fun h i => last (f i) h) l has = last (flat_map f l) has.
Proof.
  assert (forall (x y : list bool) h, last (x ++ y)%list h = last y (last x h)) as LA.
  { assert (forall (y : list bool) b h k, last (b :: y) h = last (b :: y) k) as LI.
    { intros y. induction y as [|c y IH]; intros b h k; [reflexivity|]. exact (IH c h k). }
    intros x y h. revert h. induction x as [|a x IH]; intros h; [reflexivity|]. destruct x as [|b x].
    - destruct y as [|b y]; [reflexivity|]. exact (LI y b h a).
    - exact (IH h). }
  revert has. induction l as [|i l IH]; intros has; [reflexivity|]. cbn [fold_left flat_map]. now rewrite IH, LA.
Qed.
Lemma item_spec name has i : item name has i = last (if i =? "+" ++ name then [true] else if i =? "-" ++ name then [false] else []) has.
Proof.
  destruct i as [|a f]; [reflexivity|]. cbn [item append]. change (String a f =? String "+" name) with (if Ascii.eqb a "+" then f =? name else false).
  change (String a f =? String "-" name) with (if Ascii.eqb a "-" then f =? name else false).
  destruct (Ascii.eqb a "+"), (Ascii.eqb a "-"), (f =? name); reflexivity.
Qed.
Lemma feature_flag_spec name has a : arg_ok a -> feature_flag name has (text a) = last (settings name a) has.
Proof.
  destruct a as [g l|s]; cbn [arg_ok text settings]; unfold feature_flag.
  - intros [N F].
    assert (strip_prefix "target-feature=" (or_self (strip_prefix "-C" ((if g then "-C" else "") ++ "target-feature=" ++ join "," l)) ((if g then "-C" else "") ++ "target-feature=" ++ join "," l)) = Some (join "," l)) as ->.
    { destruct g; [rewrite strip_app; cbn [or_self]; apply strip_app|]. change ("" ++ "target-feature=" ++ join "," l) with ("target-feature=" ++ join "," l).
      replace (strip_prefix "-C" ("target-feature=" ++ join "," l)) with (@None string) by reflexivity. cbn [or_self]. apply strip_app. }
    rewrite split_join; [|exact N|eapply Forall_impl; [|exact F]; cbn; tauto]. rewrite <- fold_last. generalize has. clear. induction l as [|i l IH]; intros has; [reflexivity|]. cbn [fold_left].
    now rewrite item_spec, IH.
  - intros [_ H]. cbn [last]. destruct (strip_prefix "-C" s) as [t|] eqn:C; cbn [or_self].
    + apply strip_some in C. destruct (strip_prefix "target-feature=" t) as [r|] eqn:R; [|reflexivity]. apply strip_some in R. exfalso. subst. destruct (H r) as [_ X]. now apply X.
    + destruct (strip_prefix "target-feature=" s) as [r|] eqn:R; [|reflexivity]. apply strip_some in R. exfalso. now destruct (H r) as [X _].
Qed.
Definition given (B : benv) (args : list arg) : Prop :=
  match b_rustflags B with Some s => args <> [] /\ Forall arg_ok args /\ s = join unit_sep (map text args) | None => args = [] end.
Lemma text_free a : arg_ok a -> free unit_sep (text a).
Proof.
  destruct a as [g l|s]; cbn; [|tauto]. intros [_ F]. rewrite free_app. split; [destruct g; repeat (apply free_cons; split; [discriminate|]); apply free_nil|].
  repeat (apply free_cons; split; [discriminate|]). apply free_join; [discriminate|]. eapply Forall_impl; [|exact F]. cbn. tauto.
Qed.
Lemma given_flags B args : given B args -> flags B = map text args /\ Forall arg_ok args.
Proof.
  unfold given, flags. destruct (b_rustflags B) as [s|]; [|intros ->; auto]. intros (N & F & ->). split; [|exact F]. apply split_join; [destruct args; [congruence|discriminate]|].
  apply Forall_map. eapply Forall_impl; [|exact F]. apply text_free.
Qed.
(* the last +name or -name given decides; without one the default of the target holds *)
Theorem C34_last_flag_wins B args name has : given B args -> fallback B name has = last (flat_map (settings name) args) has.
Proof.
  intros G. destruct (given_flags _ _ G) as [Q F]. unfold fallback. rewrite Q, <- fold_last. clear G Q. revert has. induction F as [|a l Ha F IH]; intros has; [reflexivity|].
  cbn [map fold_left]. now rewrite feature_flag_spec, IH.
Qed.
Lemma given_exists B : exists args, given B args.
Proof.
  unfold given. destruct (b_rustflags B) as [s|]; [|exists []; reflexivity]. destruct (join_split unit_sep s) as (J & F & N). revert J F N. generalize (split unit_sep s). intros l J F N.
  assert (exists args, Forall arg_ok args /\ map text args = l) as (args & A & M).
  { clear J N. induction F as [|x l Hx F (args & A & M)]; [exists []; auto|]. assert (exists a, arg_ok a /\ text a = x) as (a & Ha & T); [|exists (a :: args); split; [constructor; auto|cbn; congruence]].
    destruct (strip_prefix "-Ctarget-feature=" x) as [r|] eqn:R1.
    - apply strip_some in R1. exists (Features true (split "," r)). destruct (join_split "," r) as (Jr & Fr & Nr). split.
      + split; [auto|]. rewrite Forall_forall in *. intros i I. split; [auto|]. rewrite R1 in Hx. rewrite free_app in Hx. destruct Hx as [_ Hx]. rewrite <- Jr in Hx. apply free_join in Hx; [|discriminate]. rewrite Forall_forall in Hx. auto.
      + cbn [text]. rewrite Jr, R1. reflexivity.
    - destruct (strip_prefix "target-feature=" x) as [r|] eqn:R2.
      + apply strip_some in R2. exists (Features false (split "," r)). destruct (join_split "," r) as (Jr & Fr & Nr). split.
        * split; [auto|]. rewrite Forall_forall in *. intros i I. split; [auto|]. rewrite R2 in Hx. rewrite free_app in Hx. destruct Hx as [_ Hx]. rewrite <- Jr in Hx. apply free_join in Hx; [|discriminate]. rewrite Forall_forall in Hx. auto.
        * cbn [text]. rewrite Jr, R2. reflexivity.
      + exists (Other x). split; [|reflexivity]. split; [auto|]. intros r. split; [now apply strip_none|now apply strip_none]. }
  exists args. split; [|split; [auto|congruence]]. destruct args; [cbn in M; congruence|discriminate].
Qed.

(* versions *)
Lemma date_leb_spec a b : date_leb a b = true <-> date_le a b.
Proof. unfold date_leb, date_le. rewrite orb_true_iff, andb_true_iff, orb_true_iff, andb_true_iff, !Z.ltb_lt, !Z.eqb_eq, Z.leb_le. reflexivity. Qed.
(* a version passes the probe exactly if it is not before the nightly 1.m of that date *)
Theorem C34_probe v m y mo d l : probe v m y mo d = true <-> version_le (Version m true (Date y mo d) l) v.
Proof.
  unfold probe, version_le. cbn [minor nightly commit_date]. destruct (nightly v).
  - rewrite orb_true_iff, andb_true_iff, Z.gtb_lt, Z.eqb_eq, date_leb_spec. intuition lia.
  - rewrite Z.geb_leb, Z.leb_le. lia.
Qed.
Lemma date_le_trans a b c : date_le a b -> date_le b c -> date_le a c.
Proof. unfold date_le. lia. Qed.
Lemma version_le_trans a b c : version_le a b -> version_le b c -> version_le a c.
Proof.
  unfold version_le. intros [H|[H X]] [K|[K Y]]; try (left; lia). right. split; [lia|]. destruct (nightly a), (nightly b), (nightly c); auto; try contradiction. eapply date_le_trans; eauto.
Qed.
Theorem C34_probe_monotone v w m y mo d : version_le v w -> probe v m y mo d = true -> probe w m y mo d = true.
Proof. intros L P. apply (C34_probe _ _ _ _ _ 0%Z) in P. apply (C34_probe _ _ _ _ _ 0%Z). eapply version_le_trans; eauto. Qed.
(* a later compiler is never denied something an earlier one has *)
Theorem C34_flags_monotone v w f : version_le v w -> (llvm v <= llvm w)%Z -> In (OFlag f) (version_flags w) -> In (OFlag f) (version_flags v).
Proof.
  intros L K. unfold version_flags, flag_if. pose proof (C34_probe_monotone v w 61 2022 3 7 L) as P1. pose proof (C34_probe_monotone v w 74 2023 8 23 L) as P2. pose proof (C34_probe_monotone v w 83 2024 9 15 L) as P3.
  rewrite !in_app_iff. intros [H|[H|[H|H]]].
  - left. destruct (probe w 61 _ _ _), (probe v 61 _ _ _); cbn [negb] in *; first [exact H|contradiction H|discriminate (P1 eq_refl)].
  - right; left. destruct (probe w 74 _ _ _), (probe v 74 _ _ _); cbn [negb] in *; first [exact H|contradiction H|discriminate (P2 eq_refl)].
  - right; right; left. destruct (probe w 83 _ _ _), (probe v 83 _ _ _); cbn [negb] in *; first [exact H|contradiction H|discriminate (P3 eq_refl)].
  - right; right; right. destruct (Z.ltb_spec (llvm w) 20), (Z.ltb_spec (llvm v) 20); first [exact H|contradiction H|lia].
Qed.

(* the other arguments *)
Definition given_raw (B : benv) (l : list string) : Prop := l <> [] /\ Forall (free unit_sep) l /\ b_rustflags B = Some (join unit_sep l).
Lemma raw_flags B l : given_raw B l -> flags B = l.
Proof. intros (N & F & Q). unfold flags. rewrite Q. now apply split_join. Qed.
Definition no_arg (p1 p2 : string) (l : list string) : Prop := forall s r, In s l -> s <> p1 ++ r /\ s <> p2 ++ r.
Lemma strip_two d p s : strip_prefix d p = None -> d <> "" -> (forall r, s <> p ++ r /\ s <> d ++ p ++ r) -> strip_prefix p (or_self (strip_prefix d s) s) = None.
Proof.
  intros Dp N H. destruct (strip_prefix d s) as [t|] eqn:D; cbn [or_self].
  - apply strip_some in D. destruct (strip_prefix p t) as [r|] eqn:R; [|reflexivity]. apply strip_some in R. exfalso. subst. destruct (H r) as [_ X]. now apply X.
  - destruct (strip_prefix p s) as [r|] eqn:R; [|reflexivity]. apply strip_some in R. exfalso. destruct (H r) as [X _]. now apply X.
Qed.
Lemma fold_skip {A} (f : A -> string -> A) l a : (forall s, In s l -> forall a, f a s = a) -> fold_left f l a = a.
Proof. revert a. induction l as [|x l IH]; intros a H; [reflexivity|]. cbn. rewrite H by (left; auto). apply IH. intros s I. apply H. now right. Qed.
(* the last -C target-cpu decides *)
Theorem C34_last_cpu_wins B pre d c post : given_raw B (pre ++ [(if d : bool then "-C" else "") ++ "target-cpu=" ++ c]%string ++ post)%list ->
  no_arg "target-cpu=" "-Ctarget-cpu=" post -> target_cpu B = Some c.
Proof.
  intros G N. unfold target_cpu. rewrite (raw_flags _ _ G), fold_left_app. cbn [app fold_left]. rewrite fold_skip.
  - unfold cpu_flag. destruct d; [rewrite strip_app; cbn [or_self]; now rewrite strip_app|]. change ("" ++ "target-cpu=" ++ c) with ("target-cpu=" ++ c). assert (strip_prefix "-C" ("target-cpu=" ++ c) = None) as -> by reflexivity. cbn [or_self]. now rewrite strip_app.
  - intros s I a. unfold cpu_flag. rewrite strip_two; auto; [discriminate|]. intros r. exact (N s r I).
Qed.
Theorem C34_no_cpu B l : given_raw B l -> no_arg "target-cpu=" "-Ctarget-cpu=" l -> target_cpu B = None.
Proof.
  intros G N. unfold target_cpu. rewrite (raw_flags _ _ G). apply fold_skip. intros s I a. unfold cpu_flag. rewrite strip_two; auto; [discriminate|]. intros r. exact (N s r I).
Qed.
(* the last -Z allow-features decides; without one everything is allowed; nothing is while the compiler itself is being built *)
Theorem C34_last_allow_wins B pre d names post name : given_raw B (pre ++ [(if d : bool then "-Z" else "") ++ "allow-features=" ++ join "," names]%string ++ post)%list ->
  names <> [] -> Forall (free ",") names -> no_arg "allow-features=" "-Zallow-features=" post -> b_stage B = false -> is_allowed B name = true <-> In name names.
Proof.
  intros G Nn Fn N S. unfold is_allowed. rewrite S, (raw_flags _ _ G), fold_left_app. cbn [app fold_left]. rewrite fold_skip.
  - assert (forall h, allow_flag name h ((if d then "-Z" else "") ++ "allow-features=" ++ join "," names) = existsb (fun a => a =? name) names) as ->.
    { intros h. unfold allow_flag. rewrite <- (split_join "," names Nn Fn) at 3. destruct d; [rewrite strip_app; cbn [or_self]; now rewrite strip_app|]. change ("" ++ "allow-features=" ++ join "," names) with ("allow-features=" ++ join "," names).
      assert (strip_prefix "-Z" ("allow-features=" ++ join "," names) = None) as -> by reflexivity. cbn [or_self]. now rewrite strip_app. }
    rewrite existsb_exists. split; [intros (x & I & Q); apply String.eqb_eq in Q; now subst|]. intros I. exists name. split; auto. apply String.eqb_refl.
  - intros s I a. unfold allow_flag. rewrite strip_two; auto; [discriminate|]. intros r. exact (N s r I).
Qed.
Theorem C34_allow_default B l name : given_raw B l -> no_arg "allow-features=" "-Zallow-features=" l -> is_allowed B name = negb (b_stage B).
Proof.
  intros G N. unfold is_allowed. destruct (b_stage B); [reflexivity|]. rewrite (raw_flags _ _ G). apply fold_skip. intros s I a. unfold allow_flag. rewrite strip_two; auto; [discriminate|]. intros r. exact (N s r I).
Qed.
