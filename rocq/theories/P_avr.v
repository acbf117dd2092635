From Verif Require Import Sym Prog Irq Arch_avr Wide P_irq.

Ltac unfv := unfold in_sreg, out_sreg, cli, eor, avr_or, tst_.
Lemma av_get1 f m a : wf_mem m -> f Out = rd LE m a 1 -> Some (av_get 1 f) = Some (rd LE m a 1).
Proof. intros Hm E. cbn [av_get Z.eqb Pos.eqb]. rewrite E. apply some_eq. apply (rd_low LE m a 1); auto; lia. Qed.
Lemma av_get2 f m a : wf_mem m -> f Out = rd LE m a 1 -> f OutHi = rd LE m (a + 1) 1 -> av_get 2 f = rd LE m a 2.
Proof. intros Hm E E'. cbn [av_get Z.eqb Pos.eqb]. rewrite E, E'. apply (halves_rd LE m a 1); auto; lia. Qed.
Lemma av_wr2 m a v : meq (wr LE (wr LE m a 1 (low 8 v)) (a + 1) 1 (Z.shiftr v 8)) (wr LE m a 2 v).
Proof.
  eapply meq_trans; [apply (halves_wr LE m a 1); lia|]. change (8 * 1) with 8.
  pose proof (halves_half LE 8 v ltac:(lia)) as H. cbn [half1 half2] in H. rewrite H. apply meq_refl.
Qed.
Lemma av_wr1 m a v : meq (wr LE m a 1 (low 8 v)) (wr LE m a 1 v).
Proof. apply (wr_low LE m a 1); lia. Qed.
(* the two byte writes commute *)
Lemma wr_comm1 m a x y : meq (wr LE (wr LE m (a + 1) 1 y) a 1 x) (wr LE (wr LE m a 1 x) (a + 1) 1 y).
Proof.
  intros z. unfold wr. destruct (Z.leb_spec a z), (Z.ltb_spec z (a + 1)), (Z.leb_spec (a + 1) z), (Z.ltb_spec z (a + 1 + 1)); cbn; try lia; reflexivity.
Qed.


Ltac es := apply emit_silent; [apply meq_refl|].
(* everything up to the end of the critical section *)
Ltac body HB := repeat (ist HB; match goal with |- GI _ _ _ _ (Some _) _ _ => idtac end).
Ltac prog := unfold av_disable, av_restore, av_read, av_write, av_cmp; cbn [Z.eqb Pos.eqb app]; unfv.
(* finish a straight-line block whose critical section has effect [r] *)
Ltac finish_on r0 := apply emit_lin with (r := r0); [|apply exit_quiet; cbnx; [reflexivity| |assumption]].
Ltac finish_off r0 := eapply exit_open with (r := r0); cbnx; [reflexivity| |assumption|].

Lemma av_load8_fn_atomic a : atomic_irq LE av_ie (av_load8_fn a) (load_spec LE a 1).
Proof.
  unfold av_load8_fn. irq_start f r m0 Hm0. destruct Hin as [Hs _]. ie_split f HB.
  - ist HB. finish_on (rd LE (o_mem o) a 1); [apply load_spec_refl|].
    rewrite Hs, Z.add_0_r. apply some_eq. apply (rd_low LE (o_mem o) a 1); auto; lia.
  - ist HB. finish_off (rd LE m0 a 1); [|apply load_spec_refl].
    rewrite Hs, Z.add_0_r. apply some_eq. apply (rd_low LE m0 a 1); auto; lia.
Qed.
Lemma av_store8_fn_atomic a v : atomic_irq LE av_ie (av_store8_fn a v) (store_spec LE a 1 v).
Proof.
  unfold av_store8_fn. irq_start f r m0 Hm0. destruct Hin as (Hs & Hv & _). ie_split f HB.
  - ist HB. finish_on tt; [rewrite Hs, Hv, Z.add_0_r; apply meq_refl|reflexivity].
  - ist HB. finish_off tt; [reflexivity|]. rewrite Hs, Hv, Z.add_0_r; apply meq_refl.
Qed.
Lemma av_load16_fn_atomic ord a : atomic_irq LE av_ie (av_load16_fn ord a) (load_spec LE a 2).
Proof.
  unfold av_load16_fn. destruct ord; prog; irq_start f r m0 Hm0; destruct Hin as [Hs _]; ie_split f HB.
  1, 3: ist HB; es; do 4 ist HB; finish_on (rd LE (o_mem o0) a 2); [apply load_spec_refl|];
        rewrite Hs, ?Z.add_0_r; apply some_eq; apply av_get2; auto.
  all: do 5 ist HB; finish_off (rd LE m0 a 2); [|apply load_spec_refl]; rewrite Hs, ?Z.add_0_r; apply some_eq; apply av_get2; auto.
Qed.
Lemma av_store16_fn_atomic ord a v : atomic_irq LE av_ie (av_store16_fn ord a v) (store_spec LE a 2 v).
Proof.
  unfold av_store16_fn. destruct ord; prog; irq_start f r m0 Hm0; destruct Hin as (Hs & [Hv1 Hv2] & _); specialize (Hv2 eq_refl); ie_split f HB.
  1, 3: ist HB; es; do 4 ist HB; finish_on tt; [|reflexivity].
  3, 4: do 5 ist HB; finish_off tt; [reflexivity|].
  all: rewrite Hs, Hv1, Hv2, ?Z.add_0_r; first [apply av_wr2 | eapply meq_trans; [apply wr_comm1|apply av_wr2]].
Qed.
Lemma av_swap_fn_atomic n o1 o2 a v : n = 1 \/ n = 2 -> atomic_irq LE av_ie (av_swap_fn n o1 o2 a v) (swap_spec LE a n v).
Proof.
  intros [-> | ->]; unfold av_swap_fn.
  - prog. irq_start f r m0 Hm0; destruct Hin as (Hs & [Hv1 _] & _); ie_split f HB.
    + ist HB; es; do 4 ist HB; finish_on (rd LE (o_mem o0) a 1).
      * split; [reflexivity|]. rewrite Hs, Hv1, Z.add_0_r. apply av_wr1.
      * apply av_get1; auto. cbnx. now rewrite Hs, Z.add_0_r.
    + do 5 ist HB; finish_off (rd LE m0 a 1).
      * apply av_get1; auto. cbnx. now rewrite Hs, Z.add_0_r.
      * split; [reflexivity|]. rewrite Hs, Hv1, Z.add_0_r. apply av_wr1.
  - destruct o1, o2; prog; irq_start f r m0 Hm0; destruct Hin as (Hs & [Hv1 Hv2] & _); specialize (Hv2 eq_refl); ie_split f HB.
    1, 3, 5, 7: ist HB; es; do 6 ist HB; finish_on (rd LE (o_mem o0) a 2);
      [split; [reflexivity|]; rewrite Hs, Hv1, Hv2, ?Z.add_0_r; first [apply av_wr2 | eapply meq_trans; [apply wr_comm1|apply av_wr2]]
      |apply some_eq; apply av_get2; auto; cbnx; rewrite Hs, ?Z.add_0_r; reflexivity].
    all: do 7 ist HB; finish_off (rd LE m0 a 2);
      [apply some_eq; apply av_get2; auto; cbnx; rewrite Hs, ?Z.add_0_r; reflexivity
      |split; [reflexivity|]; rewrite Hs, Hv1, Hv2, ?Z.add_0_r; first [apply av_wr2 | eapply meq_trans; [apply wr_comm1|apply av_wr2]]].
Qed.
(* xor-based comparison *)
Lemma xor_eq0 x y : Z.lxor x y = 0 <-> x = y.
Proof. split; [apply Z.lxor_eq|intros ->; apply Z.lxor_nilpotent]. Qed.
Lemma cmp8_ok m a old : wf_mem m -> 0 <= old < 2 ^ 8 -> (Z.lxor (low 8 old) (rd LE m a 1) =? 0) = (rd LE m a 1 =? old).
Proof.
  intros Hm Ho. rewrite (low_id 8) by auto.
  destruct (Z.eqb_spec (Z.lxor old (rd LE m a 1)) 0) as [E|E]; rewrite xor_eq0 in E; symmetry; [apply Z.eqb_eq|apply Z.eqb_neq]; congruence.
Qed.
Lemma cmp16_ok m a old : wf_mem m -> 0 <= old < 2 ^ 16 ->
  (Z.lor (Z.lxor (low 8 old) (rd LE m a 1)) (Z.lxor (Z.shiftr old 8) (rd LE m (a + 1) 1)) =? 0) = (rd LE m a 2 =? old).
Proof.
  intros Hm Ho. pose proof (halves_rd LE m a 1 Hm ltac:(lia)) as H. change (2 * 1) with 2 in H. rewrite <- H. change (8 * 1) with 8.
  pose proof (halves_half LE 8 old ltac:(lia)) as HH. cbn [half1 half2] in HH.
  pose proof (rd_range LE m a 1 Hm ltac:(lia)) as R1. pose proof (rd_range LE m (a + 1) 1 Hm ltac:(lia)) as R2.
  change (8 * 1) with 8 in *.
  assert (halves LE 8 (rd LE m a 1) (rd LE m (a + 1) 1) = old <-> rd LE m a 1 = low 8 old /\ rd LE m (a + 1) 1 = Z.shiftr old 8) as I.
  { apply (halves_inj LE 8); auto; lia. }
  destruct (Z.eqb_spec (Z.lor (Z.lxor (low 8 old) (rd LE m a 1)) (Z.lxor (Z.shiftr old 8) (rd LE m (a + 1) 1))) 0) as [E|E];
    symmetry; [apply Z.eqb_eq|apply Z.eqb_neq].
  - apply Z.lor_eq_0_iff in E. rewrite !xor_eq0 in E. apply I. destruct E; auto.
  - intros X. apply I in X. apply E, Z.lor_eq_0_iff. rewrite !xor_eq0. destruct X; auto.
Qed.
Lemma cas_ok e a n old new m m' : rd e m a n = old -> meq m' (wr e m a n new) -> cas_spec e a n old new m m' (rd e m a n, true).
Proof. intros H1 H2. split; [reflexivity|]. cbn. auto. Qed.
Ltac avw Hs Hv1 Hv2 := rewrite ?Hs, Hv1, ?Hv2, ?Z.add_0_r; first [apply av_wr1 | apply av_wr2 | eapply meq_trans; [apply wr_comm1|apply av_wr2]].
Ltac avg Hs := cbnx; rewrite ?Hs, ?Z.add_0_r; reflexivity.
Lemma pair_ok (x y : Z) (b b' : bool) : Some x = Some y -> b = b' -> Some (x, b) = Some (y, b').
Proof. congruence. Qed.
Ltac ienorm HB := cbn [negb]; cbnx;
   try match goal with |- if av_ie ?g then _ else _ => rewrite (av_ie_eq g) end;
   cbnx; repeat first [rewrite fk30 | rewrite fk63]; rewrite ?ldiff_128; rewrite ?HB.
Lemma av_cas1_fn_atomic o1 o2 a old new : 0 <= old < 2 ^ 8 -> atomic_irq LE av_ie (av_cas_fn 1 o1 o2 a old new) (cas_spec LE a 1 old new).
Proof.
  intros Ho. unfold av_cas_fn. prog. irq_start f r m0 Hm0; destruct Hin as (Hs & [Hold1 _] & [Hv1 _] & _); ie_split f HB.
  - ist HB; es; do 5 ist HB. ist HB. rewrite Hs, Hold1, Z.add_0_r. pose proof (cmp8_ok (o_mem o0) a old ltac:(assumption) Ho) as C.
    destruct (Z.eqb_spec (rd LE (o_mem o0) a 1) old) as [E|E]; rewrite C; ienorm HB.
    + do 3 ist HB. finish_on (rd LE (o_mem o0) a 1, true).
      * apply cas_ok; auto. avw Hs Hv1 Hv1.
      * apply pair_ok; [apply av_get1; auto|exact C].
    + do 2 ist HB. finish_on (rd LE (o_mem o0) a 1, false).
      * apply cas_fail_spec; auto.
      * apply pair_ok; [apply av_get1; auto|exact C].
  - do 6 ist HB. ist HB. rewrite Hs, Hold1, Z.add_0_r. pose proof (cmp8_ok m0 a old Hm0 Ho) as C.
    destruct (Z.eqb_spec (rd LE m0 a 1) old) as [E|E]; rewrite C; ienorm HB.
    + do 3 ist HB. finish_off (rd LE m0 a 1, true).
      * apply pair_ok; [apply av_get1; auto|exact C].
      * apply cas_ok; auto. avw Hs Hv1 Hv1.
    + do 2 ist HB. finish_off (rd LE m0 a 1, false).
      * apply pair_ok; [apply av_get1; auto|exact C].
      * apply cas_fail_spec; auto.
Qed.
Ltac av_g16 Hs := apply pair_ok; [apply some_eq; apply av_get2; auto; avg Hs|].
Ltac cas2_on HB Hs Hold1 Hold2 Hv1 Hv2 Ho :=
  ist HB; es; do 9 ist HB; ist HB; rewrite Hs, Hold1, Hold2, ?Z.add_0_r;
    match goal with |- context [Z.lxor (low 8 ?old) (rd LE (o_mem ?o) ?a 1)] =>
      let C := fresh "C" in let E := fresh "E" in
      pose proof (cmp16_ok (o_mem o) a old ltac:(assumption) Ho) as C;
      destruct (Z.eqb_spec (rd LE (o_mem o) a 2) old) as [E|E]; rewrite C; ienorm HB;
      [ do 4 ist HB; finish_on (rd LE (o_mem o) a 2, true); [apply cas_ok; auto; avw Hs Hv1 Hv2 | av_g16 Hs; exact C]
      | do 2 ist HB; finish_on (rd LE (o_mem o) a 2, false); [apply cas_fail_spec; auto | av_g16 Hs; exact C ] ] end.
Ltac cas2_off m0 HB Hs Hold1 Hold2 Hv1 Hv2 Ho :=
  do 10 ist HB; ist HB; rewrite Hs, Hold1, Hold2, ?Z.add_0_r;
    match goal with |- context [Z.lxor (low 8 ?old) (rd LE m0 ?a 1)] =>
      let C := fresh "C" in let E := fresh "E" in
      pose proof (cmp16_ok m0 a old ltac:(assumption) Ho) as C;
      destruct (Z.eqb_spec (rd LE m0 a 2) old) as [E|E]; rewrite C; ienorm HB;
      [ do 4 ist HB; finish_off (rd LE m0 a 2, true); [av_g16 Hs; exact C | apply cas_ok; auto; avw Hs Hv1 Hv2]
      | do 2 ist HB; finish_off (rd LE m0 a 2, false); [av_g16 Hs; exact C | apply cas_fail_spec; auto ] ] end.
Lemma av_cas2_fn_atomic o1 o2 a old new : 0 <= old < 2 ^ 16 -> atomic_irq LE av_ie (av_cas_fn 2 o1 o2 a old new) (cas_spec LE a 2 old new).
Proof.
  intros Ho. unfold av_cas_fn. destruct o1, o2; prog; irq_start f r m0 Hm0;
    destruct Hin as (Hs & [Hold1 Hold2] & [Hv1 Hv2] & _); specialize (Hold2 eq_refl); specialize (Hv2 eq_refl); (ie_split f HB;
    [cas2_on HB Hs Hold1 Hold2 Hv1 Hv2 Ho | cas2_off m0 HB Hs Hold1 Hold2 Hv1 Hv2 Ho]).
Qed.

(* ---- top level ---- *)
Theorem av_load_atomic ord n o a f : av_load ord n o a = Impl f -> atomic_irq LE av_ie f (load_spec LE a n).
Proof.
  unfold av_load. destruct (Z.eqb_spec n 1) as [->|_]; [intros [= <-]; apply av_load8_fn_atomic|].
  destruct (Z.eqb_spec n 2) as [->|_]; [intros [= <-]; apply av_load16_fn_atomic|discriminate].
Qed.
Theorem av_store_atomic ord n o a v f : av_store ord n o a v = Impl f -> atomic_irq LE av_ie f (store_spec LE a n v).
Proof.
  unfold av_store. destruct (Z.eqb_spec n 1) as [->|_]; [intros [= <-]; apply av_store8_fn_atomic|].
  destruct (Z.eqb_spec n 2) as [->|_]; [intros [= <-]; apply av_store16_fn_atomic|discriminate].
Qed.
Theorem av_swap_atomic o1 o2 n o a v f : av_swap o1 o2 n o a v = Impl f -> atomic_irq LE av_ie f (swap_spec LE a n v).
Proof.
  unfold av_swap. destruct (Z.eqb_spec n 1) as [->|_]; [intros [= <-]; apply av_swap_fn_atomic; auto|].
  destruct (Z.eqb_spec n 2) as [->|_]; [intros [= <-]; apply av_swap_fn_atomic; auto|discriminate].
Qed.
Theorem av_cas_atomic o1 o2 n os of a old new f : 0 <= old < 2 ^ (8 * n) -> av_cas o1 o2 n os of a old new = Impl f ->
  atomic_irq LE av_ie f (cas_spec LE a n old new).
Proof.
  intros Ho. unfold av_cas. destruct (Z.eqb_spec n 1) as [->|_]; [intros [= <-]; apply av_cas1_fn_atomic; auto|].
  destruct (Z.eqb_spec n 2) as [->|_]; [intros [= <-]; apply av_cas2_fn_atomic; auto|discriminate].
Qed.

Ltac jgo := jstart; repeat jst; try jend.
Theorem av_load_contract ord n o a f : av_load ord n o a = Impl f -> good_irq av_ie f 5.
Proof.
  unfold av_load. destruct (Z.eqb_spec n 1) as [->|_]; [intros [= <-]|destruct (Z.eqb_spec n 2) as [->|_]; [intros [= <-]|discriminate]].
  - unfold av_load8_fn. jgo.
  - unfold av_load16_fn. destruct ord; prog; jgo.
Qed.
Theorem av_store_contract ord n o a v f : av_store ord n o a v = Impl f -> good_irq av_ie f 5.
Proof.
  unfold av_store. destruct (Z.eqb_spec n 1) as [->|_]; [intros [= <-]|destruct (Z.eqb_spec n 2) as [->|_]; [intros [= <-]|discriminate]].
  - unfold av_store8_fn. jgo.
  - unfold av_store16_fn. destruct ord; prog; jgo.
Qed.
Theorem av_swap_contract o1 o2 n o a v f : av_swap o1 o2 n o a v = Impl f -> good_irq av_ie f 7.
Proof.
  unfold av_swap. destruct (Z.eqb_spec n 1) as [->|_]; [intros [= <-]|destruct (Z.eqb_spec n 2) as [->|_]; [intros [= <-]|discriminate]];
  unfold av_swap_fn; destruct o1, o2; prog; jgo.
Qed.
Theorem av_cas_contract o1 o2 n os of a old new f : av_cas o1 o2 n os of a old new = Impl f -> good_irq av_ie f 15.
Proof.
  unfold av_cas. destruct (Z.eqb_spec n 1) as [->|_]; [intros [= <-]|destruct (Z.eqb_spec n 2) as [->|_]; [intros [= <-]|discriminate]];
  unfold av_cas_fn; destruct o1, o2; prog; jgo.
  all: match goal with |- context [(?x =? 0)] => destruct (x =? 0) end; cbn [negb]; cbnx; repeat jst; jend.
Qed.
