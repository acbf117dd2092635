From Verif Require Import Sym Arch_riscv Fields.

Ltac unfa := unfold sllw, srlw, seqz, rv_l, rv_s, rv_lr, rv_sc, rv_amoswap.
Lemma rv_load_fn_atomic c n a t : rv_wf c -> 0 < n -> 8 * n <= rv_w c ->
  atomic_fx LE (rv_load_fn c n a t) (load_spec LE a n).
Proof.
  intros Hc Hn Hw. destruct t as [acquire release]. unfold rv_load_fn, rv_l.
  start f r.
  stp. sil.
  stp. lin_at (rd LE (o_mem o0) a n).
  { split; [reflexivity | apply meq_refl]. }
  stq. silq.
  apply exit_Q. reflexivity. cbnx.
  rewrite Hin, Z.add_0_r. rewrite sext_low by lia. rewrite low_id; auto. apply rd_range; auto; lia.
Qed.

Lemma rv_store_fn_atomic c n a v t : rv_wf c -> 0 < n -> 8 * n <= rv_w c ->
  atomic_fx LE (rv_store_fn c n a v t) (store_spec LE a n v).
Proof.
  intros Hc Hn Hw. destruct t as [acquire release]. unfold rv_store_fn, rv_s.
  start f r. destruct Hin as [Ha [_ Hv]].
  stp. sil.
  stp. lin_at tt.
  { unfold store_spec. rewrite Ha, Z.add_0_r, <- Hv. apply meq_sym. apply wr_low; lia. }
  stq. silq. apply exit_Q; reflexivity.
Qed.

Lemma rv_swap_amo_fn_atomic c n a v t : rv_wf c -> 0 < n -> 8 * n <= rv_w c ->
  atomic_fx LE (rv_swap_amo_fn c n a v t) (swap_spec LE a n v).
Proof.
  intros Hc Hn Hw. unfold rv_swap_amo_fn, rv_amoswap.
  start f r. destruct Hin as [Ha [_ Hv]].
  stp. lin_at (rd LE (o_mem o) a n).
  { split; [reflexivity|]. rewrite Ha, <- Hv. apply meq_sym. apply wr_low; lia. }
  apply exit_Q; [reflexivity|]. cbnx. rewrite Ha, sext_low by lia. rewrite low_id; auto. apply rd_range; auto; lia.
Qed.


Lemma rv_wf_w c : rv_wf c -> 32 <= rv_w c /\ 32 <= rv_uw c.
Proof. intros [[-> ->]|[-> [->| ->]]]; lia. Qed.

Lemma rv_swap_sub_fn_atomic c n a v t : rv_wf c -> n = 1 \/ n = 2 ->
  0 <= a < 2 ^ rv_uw c -> a mod n = 0 -> 0 <= v < 2 ^ (8 * n) ->
  atomic_fx LE (rv_swap_sub_fn c n a v t) (swap_spec LE a n v).
Proof.
  intros Hc Hn Ha Hal Hv. destruct t as [acquire release]. unfold rv_swap_sub_fn.
  destruct (create_sub_word_mask_values (rv_arch c) LE (rv_uw c) (rv_w c) n a) as [[dst shift] mask] eqn:E.
  destruct (rv_wf_w c Hc) as [Hw Hu].
  apply sub_word_ok in E; try lia; [|unfold rv_arch; destruct (rv_w c =? 32); reflexivity].
  unfa. destruct E as (Ed & _ & _ & Hin_w & Hs & _ & Hm).
  replace (SHIFT_MASK (rv_arch c)) with false in Hm by (unfold rv_arch; destruct (rv_w c =? 32); reflexivity).
  set (s := field_pos LE n a) in *. pose proof (in_word_range _ _ _ _ _ _ Hin_w) as (Hs0 & Hs1 & Hn0).
  set (w := rv_w c) in *.
  set (M := sx_sll w mask shift).
  match goal with |- atomic_fx ?e ?g ?sp =>
    assert (forall k f r V, f Dst = dst -> f Shift = shift -> f Mask = M -> f Val = sx_sll w V shift -> low 32 V = v ->
            G e g k (PL g sp []) (mkst 2 f r)) as Loop end.
  { induction k as [k IH] using lt_wf_ind. intros f r V Fd Fs Fm Fv HV.
    go. stp. rewrite Fd. sc_case HE.
    - lin_at (rd LE (o_mem o4) a n).
      { split; [reflexivity|]. eapply wr_field; eauto.
        rewrite Fv, Fm. apply merge_xor_field.
        - intros b Hb. rewrite sext_bits by lia. destruct (Z.ltb_spec b (8*4)); [|lia]. rewrite HE. reflexivity.
        - intros b Hb. unfold M. rewrite sx_sll_bits by lia. rewrite Hm, Hs. apply shl_mask_bits; lia.
        - intros b Hb Fb. rewrite sx_sll_bits, Hs by lia. rewrite (shl_val_bits v V 32 s n) by (auto; lia).
          rewrite Fb. reflexivity. }
      goq. done_q. f_equal. rewrite Fs.
      change (8 * 4) with 32. rewrite sx_srl_field; try lia.
      2:{ change 32 with (8 * 4). apply rd_range; auto; lia. }
      rewrite Hs, <- HE. apply (rd_field LE 4 dst a n s); auto.
    - sil. stp. br_case H0; [lia|]. sil. apply weaken. apply IH with (V := V); cbnx; auto; lia. }
  start f r. destruct Hin as (Fd & Fs & Fm & Fv1 & Fv2).
  stp. sil. stp. sil. apply weaken. apply Loop with (V := f Val); cbnx; auto. unfold M. now rewrite Fm, Fs.
  now rewrite Fs.
Qed.

Lemma rv_cas_fn_atomic c n a old new t : rv_wf c -> 0 < n -> 8 * n <= rv_w c ->
  atomic_fx LE (with_in (rv_cas_fn c n a old new t) (fun f => sext (8 * n) (rv_w c) (f Old) = f Old))
    (cas_spec LE a n old new).
Proof.
  intros Hc Hn Hw. destruct t as [acquire release]. unfold rv_cas_fn, with_in; cbnx. unfa.
  set (w := rv_w c) in *.
  match goal with |- atomic_fx ?e ?g ?sp =>
    assert (forall k f r, f_in g f -> G e g k (PL g sp []) (mkst 0 f r)) as Loop end.
  { induction k as [k IH] using lt_wf_ind. intros f r Fin. pose proof Fin as ((Fd & [_ Fo] & [_ Fn]) & Fs).
    go. stp. rewrite Fd.
    assert (forall V, 0 <= V < 2 ^ (8 * n) -> (sext (8 * n) w V = f Old <-> V = old)) as CMP.
    { intros V HV. rewrite sext_canon_eq with (k := 8 * n) (w := w); try lia; auto.
      - rewrite sext_low by lia. rewrite low_id by auto. now rewrite Fo.
      - apply sext_idem; lia. }
    pose proof (rd_range LE (o_mem o0) a n Ho0 ltac:(lia)) as HR.
    br_case H.
    - sil. stp. rewrite Fd. sc_case HE.
      + lin_at (rd LE (o_mem o2) a n, true).
        { split; [reflexivity|]. cbn. split; [rewrite HE; apply CMP; auto|]. rewrite <- Fn. apply meq_sym, wr_low; lia. }
        stq. br_case H0; [|lia]. silq. goq. done_q. rewrite H, Z.lxor_nilpotent. cbn [b2z Z.eqb].
        unfold ret_cas. cbn [Z.eqb orb negb Pos.eqb]. do 2 f_equal. rewrite <- H. rewrite sext_low by lia. rewrite HE. apply low_id; auto.
      + sil. stp. br_case H0; [lia|]. sil. apply weaken. apply IH; auto; lia.
    - sil. apply (commit _ _ _ _ _ _ (o_mem o0) (rd LE (o_mem o0) a n, false)).
      { cbn; tauto. } { apply cas_fail_spec. rewrite <- CMP by auto. auto. }
      goq. done_q. destruct (Z.eqb_spec (Z.lxor (sext (8*n) w (rd LE (o_mem o0) a n)) (f Old)) 0) as [X|X].
      + apply Z.lxor_eq in X. contradiction.
      + cbn [b2z]. unfold ret_cas. cbn [Z.eqb orb negb]. do 2 f_equal. rewrite sext_low by lia. apply low_id; auto. }
  start f r. apply Loop. exact Hin.
Qed.

Lemma rv_cas_sub_fn_atomic c n a old new t : rv_wf c -> n = 1 \/ n = 2 ->
  0 <= a < 2 ^ rv_uw c -> a mod n = 0 -> 0 <= old < 2 ^ (8 * n) -> 0 <= new < 2 ^ (8 * n) ->
  atomic_fx LE (rv_cas_sub_fn c n a old new t) (cas_spec LE a n old new).
Proof.
  intros Hc Hn Ha Hal Hold Hnew. destruct t as [acquire release]. unfold rv_cas_sub_fn.
  destruct (create_sub_word_mask_values (rv_arch c) LE (rv_uw c) (rv_w c) n a) as [[dst shift] mask] eqn:E.
  destruct (rv_wf_w c Hc) as [Hw Hu].
  apply sub_word_ok in E; try lia; [|unfold rv_arch; destruct (rv_w c =? 32); reflexivity].
  unfa. destruct E as (Ed & _ & _ & Hin_w & Hs & _ & Hm).
  replace (SHIFT_MASK (rv_arch c)) with false in Hm by (unfold rv_arch; destruct (rv_w c =? 32); reflexivity).
  set (s := field_pos LE n a) in *. pose proof (in_word_range _ _ _ _ _ _ Hin_w) as (Hs0 & Hs1 & Hn0).
  set (w := rv_w c) in *.
  set (M := sx_sll w mask shift).
  match goal with |- atomic_fx ?e ?g ?sp =>
    assert (forall k f r O V, f Dst = dst -> f Shift = shift -> f Mask = M ->
            f Old = sx_sll w O shift -> low 32 O = old -> f New = sx_sll w V shift -> low 32 V = new ->
            G e g k (PL g sp []) (mkst 3 f r)) as Loop end.
  { induction k as [k IH] using lt_wf_ind. intros f r O V Fd Fs Fm Fo HO Fv HV.
    assert (forall m, wf_mem m -> 0 <= rd LE m dst 4 < 2 ^ 32) as HR
      by (intros; change 32 with (8 * 4); apply rd_range; auto; lia).
    assert (forall m, wf_mem m -> (Z.land (sext 32 w (rd LE m dst 4)) M = sx_sll w O shift <-> rd LE m a n = old)) as CMP.
    { intros m Hm'. rewrite <- (rd_field LE 4 dst a n s m) by auto. apply sx_sub_cmp; auto; lia. }
    assert (forall m, wf_mem m -> low (8 * n) (sx_srl w (sext 32 w (rd LE m dst 4)) shift) = rd LE m a n) as OUT.
    { intros m Hm'. rewrite sx_srl_field by (auto; lia). rewrite Hs. apply rd_field; auto. }
    go. stp. rewrite Fd, Fm, Fo. change (8 * 4) with 32. br_case H.
    - sil. go. stp. rewrite Fd. sc_case HE.
      + apply CMP in H; auto. 
        assert (rd LE (o_mem o6) a n = rd LE (o_mem o0) a n) as EQ.
        { rewrite <- !(rd_field LE 4 dst a n s) by auto. now rewrite HE. }
        lin_at (rd LE (o_mem o0) a n, true).
        { split; [auto|]. cbn [fst snd]. split; [congruence|]. eapply wr_field; eauto.
          rewrite Fv, Fm. apply merge_xor_field'.
          - intros b Hb. change (8 * 4) with 32. rewrite sext_bits by lia. destruct (Z.ltb_spec b 32); [|lia]. rewrite HE. reflexivity.
          - intros b Hb. unfold M. rewrite sx_sll_bits by lia. rewrite Hm, Hs. apply shl_mask_bits; lia.
          - intros b Hb Fb. rewrite sx_sll_bits, Hs by lia. rewrite (shl_val_bits new V 32 s n) by (auto; lia).
            rewrite Fb. reflexivity. }
        stq. br_case H0; [|lia]. silq. goq. done_q. rewrite Fs, Fm, Fo. change (8 * 4) with 32.
        assert (Z.land (sext 32 w (rd LE (o_mem o0) dst 4)) M = sx_sll w O shift) as -> by (apply CMP; auto).
        rewrite Z.lxor_nilpotent. apply (ret_cas_ok n _ _ true). auto.
      + sil. stp. br_case H0; [lia|]. sil. apply weaken. apply IH with (O := O) (V := V); cbnx; auto; lia.
    - sil. apply (commit _ _ _ _ _ _ (o_mem o0) (rd LE (o_mem o0) a n, false)).
      { cbn; tauto. } { apply cas_fail_spec. rewrite <- CMP by auto. auto. }
      goq. done_q. rewrite Fs, Fm, Fo. change (8 * 4) with 32.
      match goal with |- context [b2z ?b] => replace b with false end.
      2:{ symmetry. apply Z.eqb_neq. intros X. apply Z.lxor_eq in X. auto. }
      apply (ret_cas_ok n _ _ false). auto. }
  start f r. destruct Hin as (Fd & Fs & Fm & [_ Fo] & [_ Fn]).
  do 3 (stp; sil). apply weaken; apply Loop with (O := f Old) (V := f New); cbnx; auto; unfold M; congruence.
Qed.

(* ---- what the trait implementations do: every size, ordering and configuration ---- *)
Lemma rv_sizes c n : rv_wf c -> rv_word c n || rv_subword n = true -> 0 < n /\ 8 * n <= rv_w c.
Proof.
  intros Hc. unfold rv_word, rv_subword. destruct (rv_wf_w c Hc).
  destruct (Z.eqb_spec n 1), (Z.eqb_spec n 2), (Z.eqb_spec n 4), (Z.eqb_spec n 8), (Z.eqb_spec (rv_w c) 64); cbn [orb andb]; intros; try discriminate; lia.
Qed.
Lemma rv_subword_n n : rv_subword n = true -> n = 1 \/ n = 2.
Proof. unfold rv_subword. rewrite orb_true_iff, !Z.eqb_eq. tauto. Qed.

Theorem rv_load_atomic c n o a f : rv_wf c -> rv_load c n o a = Impl f -> atomic_fx LE f (load_spec LE a n).
Proof.
  intros Hc. unfold rv_load. destruct (rv_word c n || rv_subword n) eqn:E; [|discriminate].
  apply rv_sizes in E; auto. unfold with_table. destruct (rv_load_tbl o); [|discriminate]. intros X; inversion X.
  apply rv_load_fn_atomic; tauto.
Qed.
Theorem rv_store_atomic c n o a v f : rv_wf c -> rv_store c n o a v = Impl f -> atomic_fx LE f (store_spec LE a n v).
Proof.
  intros Hc. unfold rv_store. destruct (rv_word c n || rv_subword n) eqn:E; [|discriminate].
  apply rv_sizes in E; auto. unfold with_table. destruct (rv_store_tbl o); [|discriminate]. intros X; inversion X.
  apply rv_store_fn_atomic; tauto.
Qed.
Theorem rv_swap_atomic c n o a v f : rv_wf c -> 0 <= a < 2 ^ rv_uw c -> a mod n = 0 -> 0 <= v < 2 ^ (8 * n) ->
  rv_swap c n o a v = Impl f -> atomic_fx LE f (swap_spec LE a n v).
Proof.
  intros Hc Ha Hal Hv. unfold rv_swap. pose proof (rv_sizes c n Hc) as S.
  destruct (rv_word c n) eqn:W; [|destruct (rv_subword n) eqn:SW; [|discriminate]]; cbn in S.
  - destruct (rv_a c || rv_zaamo c); [|discriminate]. unfold with_table. destruct (rv_amo_tbl o); [|discriminate].
    intros X; inversion X. apply rv_swap_amo_fn_atomic; tauto.
  - apply rv_subword_n in SW. destruct (rv_zabha c).
    + destruct (rv_a c || rv_zaamo c); [|discriminate]. unfold with_table. destruct (rv_amo_tbl o); [|discriminate].
      intros X; inversion X. apply rv_swap_amo_fn_atomic; tauto.
    + destruct (rv_a c); [|discriminate]. unfold with_table. destruct (rv_lrsc_tbl o); [|discriminate].
      intros X; inversion X. apply rv_swap_sub_fn_atomic; auto.
Qed.

(* full statement for every size except 32-bit cells on riscv64 *)
Theorem rv_cas_atomic c n os of a old new f : rv_wf c -> 0 <= a < 2 ^ rv_uw c -> a mod n = 0 ->
  0 <= old < 2 ^ (8 * n) -> 0 <= new < 2 ^ (8 * n) -> ~ (n = 4 /\ rv_w c = 64) ->
  rv_cas c n os of a old new = Impl f -> atomic_fx LE f (cas_spec LE a n old new).
Proof.
  intros Hc Ha Hal Ho Hn Hx. unfold rv_cas. destruct (rv_a c); [|discriminate].
  pose proof (rv_sizes c n Hc) as S.
  destruct (rv_word c n) eqn:W; [|destruct (rv_subword n) eqn:SW; [|discriminate]]; cbn in S; unfold with_table;
    destruct (rv_lrsc_tbl _) as [t|]; try discriminate; intros X; inversion X; subst f; clear X.
  - specialize (S eq_refl).
    assert (8 * n = rv_w c) as E.
    { unfold rv_word in W. destruct Hc as [[Hc _]|[Hc _]]; rewrite Hc in *.
      - destruct (Z.eqb_spec n 4); [lia|]. destruct (n =? 8); discriminate.
      - destruct (Z.eqb_spec n 4); [lia|]. destruct (Z.eqb_spec n 8); [lia|discriminate]. }
    intros os0 s0 Hw Hp Hi. apply (rv_cas_fn_atomic c n a old new t Hc); try tauto.
    unfold with_in; cbn [f_in]. split; [exact Hi|].
    unfold rv_cas_fn in Hi. destruct t. cbn in Hi. destruct Hi as (_ & [Hr _] & _).
    rewrite <- E in *. change (sext (8 * n) (8 * n) (rf s0 Old) = rf s0 Old).
    rewrite <- (low_id (8 * n) (rf s0 Old)) at 2 by auto. rewrite <- (low_id (8 * n) (sext _ _ _)).
    + apply sext_low. lia.
    + apply sext_range. lia.
  - apply rv_subword_n in SW. apply rv_cas_sub_fn_atomic; auto.
Qed.
(* 32-bit cells on riscv64: proved when the register holding `current` is sign-extended *)
Theorem rv_cas_atomic_partial c n os of a old new f : rv_wf c -> 0 <= a < 2 ^ rv_uw c -> a mod n = 0 ->
  0 <= old < 2 ^ (8 * n) -> 0 <= new < 2 ^ (8 * n) ->
  rv_cas c n os of a old new = Impl f ->
  atomic_fx LE (if rv_word c n then with_in f (fun g => sext (8 * n) (rv_w c) (g Old) = g Old) else f) (cas_spec LE a n old new).
Proof.
  intros Hc Ha Hal Ho Hn. unfold rv_cas. destruct (rv_a c); [|discriminate].
  pose proof (rv_sizes c n Hc) as S.
  destruct (rv_word c n) eqn:W; [|destruct (rv_subword n) eqn:SW; [|discriminate]]; cbn in S; unfold with_table;
    destruct (rv_lrsc_tbl _) as [t|]; try discriminate; intros X; inversion X; subst f; clear X.
  - apply rv_cas_fn_atomic; tauto.
  - apply rv_subword_n in SW. apply rv_cas_sub_fn_atomic; auto.
Qed.

(* The unrestricted claim is false for 32-bit cells on riscv64: the comparison is on whole 64-bit registers,
   `lr.w` sign-extends, and nothing makes the compiler pass `current` sign-extended.  Cell = current = 2^31,
   register upper bits 0: compare_exchange returns Err(2^31) although the cell equals `current`. *)
Theorem rv_cas_32_on_64_refuted :
  exists c f, rv_wf c /\ rv_cas c 4 SeqCst SeqCst 0 (2 ^ 31) 0 = Impl f /\
    ~ atomic_fn LE f (cas_spec LE 0 4 (2 ^ 31) 0).
Proof.
  exists {| rv_w := 64; rv_uw := 64; rv_a := true; rv_zaamo := false; rv_zabha := false |}.
  eexists. split; [right; cbn; auto|]. split; [reflexivity|].
  refute_top 8%nat.
Qed.
