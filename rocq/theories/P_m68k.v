From Verif Require Import Sym Arch_m68k.

Ltac silq ::= cbn [b2z Z.eqb Pos.eqb negb]; split; [reflexivity|].
Ltac sil ::= cbn [b2z Z.eqb Pos.eqb negb]; left; split; [reflexivity|].
Ltac unfm := unfold mk_ld, mk_st, mk_cas, bne_z, seq.

Lemma mk_load_fn_atomic n a : 0 < n -> 8 * n <= 32 -> atomic_fx BE (mk_load_fn n a) (load_spec BE a n).
Proof.
  intros Hn Hw. unfold mk_load_fn. unfm. start f r. stp. rewrite Hin. lin_at (rd BE (o_mem o) a n); [apply load_spec_refl|].
  done_q. rewrite junk_hi_low, rd_low by (auto; lia). reflexivity.
Qed.
Lemma mk_store_fn_atomic n a v : 0 < n -> atomic_fx BE (mk_store_fn n a v) (store_spec BE a n v).
Proof.
  intros Hn. unfold mk_store_fn. unfm. start f r. destruct Hin as [Ha Hv].
  stp. rewrite Ha. lin_at tt; [eapply wr_opnd; eauto; lia|]. done_q. reflexivity.
Qed.
Lemma mk_swap_fn_atomic n a v : 0 < n -> 8 * n <= 32 -> atomic_fx BE (mk_swap_fn n a v) (swap_spec BE a n v).
Proof.
  intros Hn Hw. unfold mk_swap_fn. unfm.
  loop_inv 1%nat (fun f : regs => f Dst = a /\ opnd 32 (8 * n) v (f Val)) Loop.
  { pose proof Hi as (Fd & Fv). stp; sil. stp. rewrite Fd. br_case HE; cbnx.
    - lin_at (rd BE (o_mem o0) a n). { split; [reflexivity|]. eapply wr_opnd; eauto; lia. }
      stq; silq. done_q. now rewrite HE.
    - sil. stp; sil. apply weaken. apply IH; cbnx; [lts|auto]. }
  start f r. stp; sil. apply weaken. apply Loop; cbnx. exact Hin.
Qed.
(* without the assertion the block is a correct compare_exchange *)
Definition mk_cas_noassert_fn (n a old new : Z) : fn (Z * bool) :=
  mkfnl (f_prog (mk_cas_fn n a old new)) (f_in (mk_cas_fn n a old new))
       (fun f => Some (low (8 * n) (f Out), negb (low 8 (f R) =? 0))) (f_clob (mk_cas_fn n a old new)) (f_late (mk_cas_fn n a old new)).
Lemma mk_cas_noassert_atomic n a old new : 0 < n -> 8 * n <= 32 -> atomic_fx BE (mk_cas_noassert_fn n a old new) (cas_spec BE a n old new).
Proof.
  intros Hn Hw. unfold mk_cas_noassert_fn, mk_cas_fn. cbn [f_prog f_in f_clob]. unfm. start f r. destruct Hin as (Fd & [_ Fo] & Fv).
  stp. rewrite Fd, Fo. br_case HE; cbnx.
  - lin_at (rd BE (o_mem o) a n, true). { split; [reflexivity|]. cbn [fst snd]. split; [exact HE|]. eapply wr_opnd; eauto; lia. }
    stq; silq. done_q. rewrite Fo, junk_hi_low by lia. now rewrite HE.
  - lin_at (rd BE (o_mem o) a n, false). { apply cas_fail_spec; auto. }
    stq; silq. done_q. rewrite !junk_hi_low, rd_low by (auto; lia). reflexivity.
Qed.

Lemma mk_sizes n : mk_size n = true -> 0 < n /\ 8 * n <= 32.
Proof. unfold mk_size. intros H. beqs. repeat (destruct H as [H|H]; beqs); lia. Qed.
Theorem mk_load_atomic n o a f : mk_load n o a = Impl f -> atomic_fx BE f (load_spec BE a n).
Proof. unfold mk_load. disp. destruct (mk_sizes n E). apply mk_load_fn_atomic; auto. Qed.
Theorem mk_store_atomic n o a v f : mk_store n o a v = Impl f -> atomic_fx BE f (store_spec BE a n v).
Proof. unfold mk_store. disp. destruct (mk_sizes n E). apply mk_store_fn_atomic; auto. Qed.
Theorem mk_swap_atomic c n o a v f : mk_swap c n o a v = Impl f -> atomic_fx BE f (swap_spec BE a n v).
Proof. unfold mk_swap. disp. beqs. destruct E as [_ E]. destruct (mk_sizes n E). apply mk_swap_fn_atomic; auto. Qed.
(* partial: the memory effect and the values are those of compare_exchange, with the same registers decoded without the
   assertion [r == 0 || r == 1] of m68k.rs:119 *)
Theorem mk_cas_atomic_partial c n os of a old new f : mk_cas_ c n os of a old new = Impl f ->
  exists f', f_prog f' = f_prog f /\ f_in f' = f_in f /\ (forall g r, f_out f g = Some r -> f_out f' g = Some r) /\
             atomic_fx BE f' (cas_spec BE a n old new).
Proof.
  unfold mk_cas_. disp. beqs. destruct E as [_ E]. destruct (mk_sizes n E). exists (mk_cas_noassert_fn n a old new).
  split; [reflexivity|]. split; [reflexivity|]. split; [|apply mk_cas_noassert_atomic; auto].
  intros g r. cbn [mk_cas_fn f_out mk_cas_noassert_fn]. unfold ret_cas. destruct (_ || _); [auto|discriminate].
Qed.
(* ... but every successful compare_exchange executes a false assert_unchecked: seq produces 0xFF, not 1 *)
Theorem mk_cas_success_ub n a old new os s0 t sf :
  0 < n -> 8 * n <= 32 -> wf_oracles os -> Forall (fun o => rd BE (o_mem o) a n = old) os -> pc s0 = O -> f_in (mk_cas_fn n a old new) (rf s0) ->
  run BE (f_prog (mk_cas_fn n a old new)) os s0 = Ran t sf -> at_exit (f_prog (mk_cas_fn n a old new)) sf ->
  f_out (mk_cas_fn n a old new) (rf sf) = None.
Proof.
  intros Hn Hw Hos Hrd Hpc Hin. destruct s0 as [k f r]. cbn in Hpc. subst k. unfold mk_cas_fn in *. unfm. cbn [f_in rf] in Hin. destruct Hin as (Fd & [_ Fo] & _).
  destruct os as [|o1 os]; [intros X; inversion X; subst; cbn; discriminate|]. pose proof (Forall_inv Hrd) as H1. cbv beta in H1.
  cbn [run f_prog nth_error pc]. cbnx. rewrite Fd, H1, Fo, Z.eqb_refl. cbnx.
  destruct os as [|o2 os]; [cbn [run]; intros X; inversion X; subst; cbn; discriminate|]. cbn [run nth_error pc]. cbnx.
  destruct os as [|o3 os]; cbn [run pc nth_error]; intros X; inversion X; intros _; cbn [rf f_out upds upd reg_beq];
    unfold ret_cas; rewrite junk_hi_low by lia; reflexivity.
Qed.
(* so compare_exchange is refuted at every size and every operand *)
Theorem mk_cas_refuted n os of a old new f : 0 <= old < 2 ^ (8 * n) -> 0 <= new < 2 ^ (8 * n) ->
  mk_cas_ true n os of a old new = Impl f -> ~ atomic_fn BE f (cas_spec BE a n old new).
Proof.
  intros Ho Hn. unfold mk_cas_. disp. cbn [andb] in E. destruct (mk_sizes n E) as [Hn1 Hn2]. intros HA.
  set (m := wr BE (fun _ => 0) a n old).
  assert (wf_mem m) as Hm by (apply wf_wr; intros x; cbn; lia).
  set (o := mkor m true 0). set (g := fun r => match r with Dst => a | Out => old | New => new | _ => 0 end).
  assert (2 ^ (8 * n) <= 2 ^ 32) as Hp by (apply Z.pow_le_mono_r; lia).
  assert (f_in (mk_cas_fn n a old new) g) as Hg.
  { cbn [f_in mk_cas_fn]. unfold g, opnd. repeat split; try lia; apply low_id; lia. }
  assert (rd BE m a n = old) as Hr by (unfold m; rewrite rd_wr_same by (auto; try lia; intros x; cbn; lia); apply low_id; auto).
  specialize (HA [o; o] (mkst 0 g None)). cbn [wf_oracles] in HA.
  assert (wf_oracles [o; o]) as Hwo by (constructor; [exact Hm|constructor; [exact Hm|constructor]]).
  specialize (HA Hwo eq_refl Hg).
  destruct (run BE (f_prog (mk_cas_fn n a old new)) [o; o] (mkst 0 g None)) as [t sf|] eqn:R; [|exact HA].
  assert (at_exit (f_prog (mk_cas_fn n a old new)) sf) as Hx.
  { revert R. unfold mk_cas_fn. unfm. cbn [run f_prog nth_error pc]. cbnx. intros R. inversion R. reflexivity. }
  destruct HA as [HA _]. destruct (HA Hx) as (r & Hr' & _).
  rewrite (mk_cas_success_ub n a old new [o; o] (mkst 0 g None) t sf) in Hr'; try discriminate; auto.
Qed.
