From Verif Require Import Sym Prog Irq Arch_msp430 Wide P_irq.


Ltac es := apply emit_silent; [apply meq_refl|].
Ltac eq_ := apply emit_quiet; [apply meq_refl|].
Ltac prog := unfold ms_disable, ms_restore; cbn [app]; unfold dint, nop_after_dint, nop_, xor_sz, tst_.
Ltac on r0 := apply emit_lin with (r := r0).
Ltac fin_on := apply exit_quiet; cbnx; [reflexivity| |assumption].
Ltac fin_off r0 := eapply exit_open with (r := r0); cbnx; [reflexivity| |assumption|].
Lemma ms_rd m a n : wf_mem m -> 0 <= n -> low (8 * n) (rd LE m a n) = rd LE m a n.
Proof. intros. apply rd_low; auto. Qed.
Lemma ms_wr m a n x v : 0 <= n -> low (8 * n) x = v -> meq (wr LE m a n x) (wr LE m a n v).
Proof. intros Hn <-. apply meq_sym. apply wr_low; lia. Qed.
Lemma low_xor k x y : 0 <= k -> low k (Z.lxor x y) = Z.lxor (low k x) (low k y).
Proof. intros. apply Z.bits_inj'. intros i Hi. rewrite Z.lxor_spec, !low_bits, Z.lxor_spec by lia. destruct (i <? k); reflexivity. Qed.

Lemma ms_load_fn_atomic n a : 0 <= n -> atomic_irq LE ms_ie (ms_load_fn n a) (load_spec LE a n).
Proof.
  intros Hn. unfold ms_load_fn. irq_start f r m0 Hm0. destruct Hin as [Hs _]. ie_split f HB.
  - ist HB. on (rd LE (o_mem o) a n); [apply load_spec_refl|]. fin_on. rewrite Hs, Z.add_0_r. apply some_eq, ms_rd; auto.
  - ist HB. fin_off (rd LE m0 a n); [|apply load_spec_refl]. rewrite Hs, Z.add_0_r. apply some_eq, ms_rd; auto.
Qed.
Lemma ms_store_fn_atomic n a v : 0 <= n -> atomic_irq LE ms_ie (ms_store_fn n a v) (store_spec LE a n v).
Proof.
  intros Hn. unfold ms_store_fn. irq_start f r m0 Hm0. destruct Hin as (Hs & [_ Hv] & _). ie_split f HB.
  - ist HB. on tt; [|fin_on; reflexivity]. rewrite Hs, Z.add_0_r. apply ms_wr; auto.
  - ist HB. fin_off tt; [reflexivity|]. rewrite Hs, Z.add_0_r. apply ms_wr; auto.
Qed.
Lemma ms_swap_fn_atomic n a v : 0 <= n -> atomic_irq LE ms_ie (ms_swap_fn n a v) (swap_spec LE a n v).
Proof.
  intros Hn. unfold ms_swap_fn. prog. irq_start f r m0 Hm0. destruct Hin as (Hs & [_ Hv] & _). ie_split f HB.
  - do 2 (ist HB; es). do 5 ist HB. on (rd LE (o_mem o1) a n).
    + split; [reflexivity|]. rewrite Hs, Z.add_0_r. apply ms_wr; auto.
    + ist HB. eq_. fin_on. rewrite Hs, Z.add_0_r. apply some_eq, ms_rd; auto.
  - do 8 ist HB. fin_off (rd LE m0 a n).
    + rewrite Hs, Z.add_0_r. apply some_eq, ms_rd; auto.
    + split; [reflexivity|]. rewrite Hs, Z.add_0_r. apply ms_wr; auto.
Qed.
(* xor.b / xor.w of the two operands is zero in the type's bits exactly when the values are equal *)
Lemma ms_cmp m a n old x : wf_mem m -> 0 <= n -> low (8 * n) x = old ->
  (low (8 * n) (low (8 * n) (Z.lxor x (rd LE m a n))) =? 0) = (rd LE m a n =? old).
Proof.
  intros Hm Hn Ho. rewrite low_low by lia. rewrite low_xor by lia. rewrite Ho, (ms_rd m a n) by auto.
  destruct (Z.eqb_spec (Z.lxor old (rd LE m a n)) 0) as [E|E]; symmetry; [apply Z.eqb_eq; symmetry; now apply Z.lxor_eq|].
  apply Z.eqb_neq. intros X. apply E. rewrite X. apply Z.lxor_nilpotent.
Qed.
Ltac ienorm HB := cbn [negb]; cbnx;
   try match goal with |- if ms_ie ?g then _ else _ => rewrite (ms_ie_eq g) end;
   cbnx; repeat rewrite fk263; rewrite ?ldiff_8; rewrite ?HB.
Lemma ms_pair n m a (b b' : bool) : wf_mem m -> 0 <= n -> b = b' -> Some (low (8 * n) (rd LE m a n), b) = Some (rd LE m a n, b').
Proof. intros. rewrite ms_rd by auto. congruence. Qed.
Lemma ms_cas_ok n m a old new m' : rd LE m a n = old -> meq m' (wr LE m a n new) -> cas_spec LE a n old new m m' (rd LE m a n, true).
Proof. intros H1 H2. split; [reflexivity|]. cbn. auto. Qed.
Lemma ms_cas_fn_atomic n a old new : 0 <= n -> atomic_irq LE ms_ie (ms_cas_fn n a old new) (cas_spec LE a n old new).
Proof.
  intros Hn. unfold ms_cas_fn. prog. irq_start f r m0 Hm0. destruct Hin as (Hs & [_ Hold] & [_ Hv] & _). ie_split f HB.
  - do 2 (ist HB; es). do 5 ist HB. ist HB. rewrite Hs, ?Z.add_0_r.
    pose proof (ms_cmp (o_mem o1) a n old (f Old) ltac:(assumption) Hn Hold) as C.
    destruct (Z.eqb_spec (rd LE (o_mem o1) a n) old) as [E|E]; rewrite C; ienorm HB.
    + do 4 ist HB. on (rd LE (o_mem o1) a n, true). { apply ms_cas_ok; auto. rewrite ?Hs, ?Z.add_0_r. apply ms_wr; auto. }
      ist HB. eq_. fin_on. rewrite ?Hs, ?Z.add_0_r. apply ms_pair; auto.
    + do 3 ist HB. on (rd LE (o_mem o1) a n, false). { apply cas_fail_spec; auto. }
      ist HB. eq_. fin_on. rewrite ?Hs, ?Z.add_0_r. apply ms_pair; auto.
  - do 7 ist HB. ist HB. rewrite Hs, ?Z.add_0_r.
    pose proof (ms_cmp m0 a n old (f Old) ltac:(assumption) Hn Hold) as C.
    destruct (Z.eqb_spec (rd LE m0 a n) old) as [E|E]; rewrite C; ienorm HB.
    + do 5 ist HB. fin_off (rd LE m0 a n, true); [|apply ms_cas_ok; auto; rewrite ?Hs, ?Z.add_0_r; apply ms_wr; auto].
      rewrite ?Hs, ?Z.add_0_r. apply ms_pair; auto.
    + do 4 ist HB. fin_off (rd LE m0 a n, false); [|apply cas_fail_spec; auto].
      rewrite ?Hs, ?Z.add_0_r. apply ms_pair; auto.
Qed.
Ltac szd := unfold ms_load, ms_store, ms_swap, ms_cas, ms_size; intros H;
  match type of H with context [(?n =? 1) || (?n =? 2)] => assert (0 <= n) as Hn by (destruct (Z.eqb_spec n 1), (Z.eqb_spec n 2); [lia|lia|lia|discriminate]);
  destruct ((n =? 1) || (n =? 2)); [injection H as <-|discriminate] end.
Theorem ms_load_atomic n o a f : ms_load n o a = Impl f -> atomic_irq LE ms_ie f (load_spec LE a n).
Proof. szd. now apply ms_load_fn_atomic. Qed.
Theorem ms_store_atomic n o a v f : ms_store n o a v = Impl f -> atomic_irq LE ms_ie f (store_spec LE a n v).
Proof. szd. now apply ms_store_fn_atomic. Qed.
Theorem ms_swap_atomic n o a v f : ms_swap n o a v = Impl f -> atomic_irq LE ms_ie f (swap_spec LE a n v).
Proof. szd. now apply ms_swap_fn_atomic. Qed.
Theorem ms_cas_atomic n os of a old new f : ms_cas n os of a old new = Impl f -> atomic_irq LE ms_ie f (cas_spec LE a n old new).
Proof. szd. now apply ms_cas_fn_atomic. Qed.
Ltac jgo := jstart; repeat jst; try jend.
Theorem ms_load_contract n o a f : ms_load n o a = Impl f -> good_irq ms_ie f 1.
Proof. szd. unfold ms_load_fn. jgo. Qed.
Theorem ms_store_contract n o a v f : ms_store n o a v = Impl f -> good_irq ms_ie f 1.
Proof. szd. unfold ms_store_fn. jgo. Qed.
Theorem ms_swap_contract n o a v f : ms_swap n o a v = Impl f -> good_irq ms_ie f 8.
Proof. szd. unfold ms_swap_fn. prog. jgo. Qed.
Theorem ms_cas_contract n os of a old new f : ms_cas n os of a old new = Impl f -> good_irq ms_ie f 13.
Proof.
  szd. unfold ms_cas_fn. prog. jgo.
  match goal with |- context [(?x =? 0)] => destruct (x =? 0) end; cbn [negb]; cbnx; repeat jst; jend.
Qed.
