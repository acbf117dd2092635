(* C35, continued: on x86 the temporary in which a block saves a register that LLVM reserves may be that register. *)
From Verif Require Import Api ApiProofs Steps All_atomic All_misc All_progress Alloc AllocAll Prop_misc P_x86 Q_x86 P_x86l Q_x86l P_rbx Prop_alloc.
From Verif Require Import Arch_x86 Arch_x86l.

(* the register the blocks for [n]-byte types save and restore: rbx (cmpxchg16b), esi (32-bit blocks of arch_legacy) *)
Definition saved_in (T : arch) (n : Z) : option reg :=
  match T with
  | X86 c => if x_qw c n then Some XB else None
  | X86L c _ => if x_qw c n then Some XB else if x_dw c n then Some XS else None
  | _ => None
  end.
Definition into_ok {A} (T : arch) (s : reg) (f : fn A) (sp : mem -> mem -> A -> Prop) (a n : Z) : Prop :=
  is_atomic T (alloc (into s) f) sp /\ honours_contract T (alloc (into s) f) /\ retries_paid T (alloc (into s) f) a n 25 /\ alias_ok (alloc (into s) f).
Ltac fall ::= repeat match goal with |- Forall _ (match ?b with _ => _ end) => destruct b | |- Forall _ (_ (match ?b with _ => _ end)) => destruct b; cbv beta iota
  | |- Forall _ (_ :: _) => apply Forall_cons; [cbn [fst]; inl|] | |- Forall _ [] => apply Forall_nil end.
Ltac ali := unfold x_load128_fn, x_store128_fn, x_swap128_fn, x_cas128_fn, x_wide128, xl_load64_fn, xl_store64_fn, xl_swap64_fn, xl_cas64_fn, xl_load128_fn, xl_store128_fn, xl_swap128_fn, xl_cas128_fn;
  try match goal with |- context [xl_wide ?c] => destruct (xl_wide c) end; P_x86l.unfa; allocd; tomk; al1.
Lemma qw_dw c n : x_qw c n = true -> x_dw c n = false.
Proof. intros H. destruct (x_qw_w c n H) as [-> H2]. unfold x_dw. destruct (16 =? 8) eqn:E; [discriminate E|reflexivity]. Qed.
Lemma qw_word c n : x_qw c n = true -> x_word c n = false.
Proof. intros H. destruct (x_qw_w c n H) as [-> H2]. reflexivity. Qed.
Lemma dw_word c n : x_dw c n = true -> x_word c n = false.
Proof. intros H. destruct (x_dw_w c n H) as [-> H2]. unfold x_word. rewrite H2. reflexivity. Qed.
Lemma load_into T n o a f s : t_wf T -> cell T n a -> saved_in T n = Some s -> t_load T n o a = Impl f -> into_ok T s f (load_spec (t_e T) a n) a n.
Proof.
  intros W [Ha Hm]  HS H. destruct T; cbn [saved_in] in HS; try discriminate HS; cbn [t_load t_wf t_pw t_e] in *; unfold val in *.
  - unfold x_load in H. destruct (x_qw c n) eqn:Q; [|discriminate HS]. injection HS as <-. rewrite (qw_word c n Q), (qw_dw c n Q) in H.
    destruct (x_qw_w c n Q) as [-> Hw]. injection H as <-. unfold into_ok. cbn [is_atomic honours_contract retries_paid t_e].
    split; [apply fx_atomic, x_load128_into_atomic; auto|]. split; [apply x_load128_into_contract|]. split; [left; eapply progress_mono; [|apply x_load128_into_progress]; lia|]. ali.
  - destruct W as [W (B1 & B2 & B3 & B4)]. unfold xl_load in H. destruct (x_qw c n) eqn:Q.
    + injection HS as <-. rewrite (qw_word c n Q), (qw_dw c n Q) in H. destruct (x_qw_w c n Q) as [-> Hw]. injection H as <-. unfold into_ok. cbn [is_atomic honours_contract retries_paid t_e].
      split; [apply fx_atomic, xl_load128_into_atomic; auto|]. split; [apply xl_load128_into_contract|]. split; [left; eapply progress_mono; [|apply xl_load128_into_progress]; lia|]. ali.
    + destruct (x_dw c n) eqn:D; [|discriminate HS]. injection HS as <-. rewrite (dw_word c n D) in H. destruct (x_dw_w c n D) as [-> Hw]. unfold into_ok. cbn [is_atomic honours_contract retries_paid t_e].
      injection H as <-.
      split; [apply fx_atomic, xl_load64_into_atomic; auto|]. split; [apply xl_load64_into_contract|]. split; [left; eapply progress_mono; [|apply xl_load64_into_progress; auto]; lia|]. ali.
Qed.
Lemma store_into T n o a v f s : t_wf T -> cell T n a -> val n v -> saved_in T n = Some s -> t_store T n o a v = Impl f -> into_ok T s f (store_spec (t_e T) a n v) a n.
Proof.
  intros W [Ha Hm] Hv HS H. destruct T; cbn [saved_in] in HS; try discriminate HS; cbn [t_store t_wf t_pw t_e] in *; unfold val in *.
  - unfold x_store in H. destruct (x_qw c n) eqn:Q; [|discriminate HS]. injection HS as <-. rewrite (qw_word c n Q), (qw_dw c n Q) in H.
    destruct (x_qw_w c n Q) as [-> Hw]. injection H as <-. unfold into_ok. cbn [is_atomic honours_contract retries_paid t_e].
    split; [apply fx_atomic, x_store128_into_atomic; auto|]. split; [apply x_store128_into_contract|]. split; [left; eapply progress_mono; [|apply x_store128_into_progress]; lia|]. ali.
  - destruct W as [W (B1 & B2 & B3 & B4)]. unfold xl_store in H. destruct (x_qw c n) eqn:Q.
    + injection HS as <-. rewrite (qw_word c n Q), (qw_dw c n Q) in H. destruct (x_qw_w c n Q) as [-> Hw]. injection H as <-. unfold into_ok. cbn [is_atomic honours_contract retries_paid t_e].
      split; [apply fx_atomic, xl_store128_into_atomic; auto|]. split; [apply xl_store128_into_contract|]. split; [left; eapply progress_mono; [|apply xl_store128_into_progress]; lia|]. ali.
    + destruct (x_dw c n) eqn:D; [|discriminate HS]. injection HS as <-. rewrite (dw_word c n D) in H. destruct (x_dw_w c n D) as [-> Hw]. unfold into_ok. cbn [is_atomic honours_contract retries_paid t_e].
      assert (exists t, f = xl_store64_fn c b a v t) as [t ->] by (destruct (xl_wide c) eqn:XW; try (unfold with_table in H; destruct (x_store64_tbl o) as [t|]; [|discriminate H]; exists t); try exists FNone; now injection H as <-). clear H.
      split; [apply fx_atomic, xl_store64_into_atomic; auto|]. split; [apply xl_store64_into_contract|]. split; [left; eapply progress_mono; [|apply xl_store64_into_progress; auto]; lia|]. destruct t; ali.
Qed.
Lemma swap_into T n o a v f s : t_wf T -> cell T n a -> val n v -> saved_in T n = Some s -> t_swap T n o a v = Impl f -> into_ok T s f (swap_spec (t_e T) a n v) a n.
Proof.
  intros W [Ha Hm] Hv HS H. destruct T; cbn [saved_in] in HS; try discriminate HS; cbn [t_swap t_wf t_pw t_e] in *; unfold val in *.
  - unfold x_swap in H. destruct (x_qw c n) eqn:Q; [|discriminate HS]. injection HS as <-. rewrite (qw_word c n Q), (qw_dw c n Q) in H.
    destruct (x_qw_w c n Q) as [-> Hw]. injection H as <-. unfold into_ok. cbn [is_atomic honours_contract retries_paid t_e].
    split; [apply fx_atomic, x_swap128_into_atomic; auto|]. split; [apply x_swap128_into_contract|]. split; [left; eapply progress_mono; [|apply x_swap128_into_progress]; lia|]. ali.
  - destruct W as [W (B1 & B2 & B3 & B4)]. unfold xl_swap in H. destruct (x_qw c n) eqn:Q.
    + injection HS as <-. rewrite (qw_word c n Q), (qw_dw c n Q) in H. destruct (x_qw_w c n Q) as [-> Hw]. injection H as <-. unfold into_ok. cbn [is_atomic honours_contract retries_paid t_e].
      split; [apply fx_atomic, xl_swap128_into_atomic; auto|]. split; [apply xl_swap128_into_contract|]. split; [left; eapply progress_mono; [|apply xl_swap128_into_progress]; lia|]. ali.
    + destruct (x_dw c n) eqn:D; [|discriminate HS]. injection HS as <-. rewrite (dw_word c n D) in H. destruct (x_dw_w c n D) as [-> Hw]. unfold into_ok. cbn [is_atomic honours_contract retries_paid t_e].
      injection H as <-.
      split; [apply fx_atomic, xl_swap64_into_atomic; auto|]. split; [apply xl_swap64_into_contract|]. split; [left; eapply progress_mono; [|apply xl_swap64_into_progress; auto]; lia|]. ali.
Qed.
Lemma cas_into T n so fo a x y f s : t_wf T -> cell T n a -> val n x -> val n y -> saved_in T n = Some s -> t_cas T n so fo a x y = Impl f -> into_ok T s f (cas_spec (t_e T) a n x y) a n.
Proof.
  intros W [Ha Hm] Hx Hy HS H. destruct T; cbn [saved_in] in HS; try discriminate HS; cbn [t_cas t_wf t_pw t_e] in *; unfold val in *.
  - unfold x_cas in H. destruct (x_qw c n) eqn:Q; [|discriminate HS]. injection HS as <-. rewrite (qw_word c n Q), (qw_dw c n Q) in H.
    destruct (x_qw_w c n Q) as [-> Hw]. injection H as <-. unfold into_ok. cbn [is_atomic honours_contract retries_paid t_e].
    split; [apply fx_atomic, x_cas128_into_atomic; auto|]. split; [apply x_cas128_into_contract|]. split; [left; eapply progress_mono; [|apply x_cas128_into_progress]; lia|]. ali.
  - destruct W as [W (B1 & B2 & B3 & B4)]. unfold xl_cas in H. destruct (x_qw c n) eqn:Q.
    + injection HS as <-. rewrite (qw_word c n Q), (qw_dw c n Q) in H. destruct (x_qw_w c n Q) as [-> Hw]. injection H as <-. unfold into_ok. cbn [is_atomic honours_contract retries_paid t_e].
      split; [apply fx_atomic, xl_cas128_into_atomic; auto|]. split; [apply xl_cas128_into_contract|]. split; [left; eapply progress_mono; [|apply xl_cas128_into_progress]; lia|]. ali.
    + destruct (x_dw c n) eqn:D; [|discriminate HS]. injection HS as <-. rewrite (dw_word c n D) in H. destruct (x_dw_w c n D) as [-> Hw]. unfold into_ok. cbn [is_atomic honours_contract retries_paid t_e].
      injection H as <-.
      split; [apply fx_atomic, xl_cas64_into_atomic; auto|]. split; [apply xl_cas64_into_contract|]. split; [left; eapply progress_mono; [|apply xl_cas64_into_progress; auto]; lia|]. ali.
Qed.
Lemma casw_into T n so fo a x y f s : t_wf T -> cell T n a -> val n x -> val n y -> saved_in T n = Some s -> t_casw T n so fo a x y = Impl f -> into_ok T s f (casw_spec (t_e T) a n x y) a n.
Proof.
  intros W C Hx Hy HS H. assert (E : t_cas T n so fo a x y = Impl f) by (destruct T; try discriminate HS; exact H).
  destruct (cas_into T n so fo a x y f s W C Hx Hy HS E) as (I1 & I2 & I3 & I4). split; [|split; [exact I2|split; [exact I3|exact I4]]].
  eapply is_atomic_mono; [|exact I1]. intros m m' [v ok] [A B]. split; [exact A|]. destruct ok; [exact B|apply B].
Qed.
(* Whatever register the temporary gets - in particular the saved register itself - the call is the same atomic operation, keeps the
   operand contract and terminates as before. *)
Theorem C35_temporary_in_saved_register T c f s g : t_wf T -> op_args T c -> saved_in T (op_size c) = Some s -> op_impl T c = Impl f ->
  permitted g (alloc (into s) f) ->
  is_atomic T (alloc g (alloc (into s) f)) (op_spec (t_e T) c) /\ honours_contract T (alloc g (alloc (into s) f)) /\
  retries_paid T (alloc g (alloc (into s) f)) (fst (op_cell c)) (snd (op_cell c)) 25.
Proof.
  intros W Ha HS H P.
  assert (K : is_atomic T (alloc (into s) f) (op_spec (t_e T) c) /\ honours_contract T (alloc (into s) f) /\
              retries_paid T (alloc (into s) f) (fst (op_cell c)) (snd (op_cell c)) 25 /\ alias_ok (alloc (into s) f)).
  { destruct c; cbn [op_impl op_args op_size op_cell fst snd] in *; apply impl_map_inv in H; destruct H as (x & E & ->).
    - destruct (load_into T n o a x s W Ha HS E) as (I1 & I2 & I3 & I4). split; [|split; [exact (contract_fmap _ T _ I2)|split; [exact (paid_fmap _ T _ _ _ _ I3)|exact (fmap_alias _ _ I4)]]].
      refine (is_atomic_fmap RVal T (alloc (into s) x) _ _ _ I1). auto.
    - destruct Ha as [Ha Hv]. destruct (store_into T n o a v x s W Ha Hv HS E) as (I1 & I2 & I3 & I4). split; [|split; [exact (contract_fmap _ T _ I2)|split; [exact (paid_fmap _ T _ _ _ _ I3)|exact (fmap_alias _ _ I4)]]].
      refine (is_atomic_fmap (fun _ => RUnit) T (alloc (into s) x) _ _ _ I1). intros m m' []; auto.
    - destruct Ha as [Ha Hv]. destruct (swap_into T n o a v x s W Ha Hv HS E) as (I1 & I2 & I3 & I4). split; [|split; [exact (contract_fmap _ T _ I2)|split; [exact (paid_fmap _ T _ _ _ _ I3)|exact (fmap_alias _ _ I4)]]].
      refine (is_atomic_fmap RVal T (alloc (into s) x) _ _ _ I1). auto.
    - destruct Ha as (Ha & Hx & Hy). destruct (cas_into T n success failure a current new x s W Ha Hx Hy HS E) as (I1 & I2 & I3 & I4).
      split; [|split; [exact (contract_fmap _ T _ I2)|split; [exact (paid_fmap _ T _ _ _ _ I3)|exact (fmap_alias _ _ I4)]]].
      refine (is_atomic_fmap (fun r => RCas (fst r) (snd r)) T (alloc (into s) x) _ _ _ I1). intros m m' [v ok]; auto.
    - destruct Ha as (Ha & Hx & Hy). destruct (casw_into T n success failure a current new x s W Ha Hx Hy HS E) as (I1 & I2 & I3 & I4).
      split; [|split; [exact (contract_fmap _ T _ I2)|split; [exact (paid_fmap _ T _ _ _ _ I3)|exact (fmap_alias _ _ I4)]]].
      refine (is_atomic_fmap (fun r => RCas (fst r) (snd r)) T (alloc (into s) x) _ _ _ I1). intros m m' [v ok]; auto. }
  destruct K as (K1 & K2 & K3 & K4). destruct T; try discriminate HS; cbn [is_atomic honours_contract retries_paid] in *;
  (split; [exact (alloc_atomic _ g _ _ P K4 K1)|split; [exact (alloc_contract _ g _ P K4 K2)|]]; destruct K3 as [C|[C1 C]]; [left; exact (alloc_progress _ g _ _ _ _ P K4 C)|right; split; [exact C1|exact (alloc_progress _ g _ _ _ _ P K4 C)]]).
Qed.
(* such a call: 128-bit compare_exchange on x86_64 *)
Definition x64 : x_cfg := {| x_w := 64; x_pw := 64; x_cmpxchg := true; x_c8b := true; x_c16b := true; x_sse := true; x_sse2 := true; x_x87 := true |}.
Example C35_saved_register_case : exists f, saved_in (X86 x64) 16 = Some XB /\ op_impl (X86 x64) (OCas 16 SeqCst Acquire 64 1 2) = Impl f /\ permitted (fun r => r) (alloc (into XB) f) /\
  In XB (f_clob (alloc (into XB) f)) /\ ~ In XB (f_clob f).
Proof. eexists. split; [reflexivity|]. split; [reflexivity|]. split; [apply id_permitted|]. split; cbn; intuition discriminate. Qed.
