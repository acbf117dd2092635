(* Concrete executions: the hypotheses of the theorems are met by real, non-trivial calls. *)
From Verif Require Import Api ApiProofs PropSpec Prop_ops Prop_misc Conc Solo.
From Verif Require Import Arch_riscv Arch_s390x Arch_x86 Arch_avr Arch_msp430 Arch_arm_linux.

Definition rval_eqb (a b : rval) : bool :=
  match a, b with RVal x, RVal y => x =? y | RUnit, RUnit => true | RCas x b1, RCas y b2 => (x =? y) && Bool.eqb b1 b2 | _, _ => false end.
Lemma rval_eqb_eq a b : rval_eqb a b = true -> a = b.
Proof. destruct a, b; cbn; try discriminate; auto; [intros; f_equal; lia|]. destruct ok, ok0; cbn; rewrite ?andb_true_r, ?andb_false_r; try discriminate; intros; f_equal; lia. Qed.
Lemma call_example T c f os g r : t_ie T = None -> op_pre T c = Ret tt -> op_impl T c = Impl f -> wf_oracles os -> f_in f g ->
  match run (t_e T) (f_prog f) os (mkst O g None) with
  | Ran t sf => Nat.eqb (pc sf) (length (f_prog f)) && match f_out f (rf sf) with Some r' => rval_eqb r' r | None => false end
  | Stuck => false end = true ->
  exists t, call_run T c t (Returned r).
Proof.
  intros HT P I W Hi H. destruct (run _ _ _ _) as [t sf|] eqn:R; [|discriminate]. apply andb_prop in H. destruct H as [X O].
  apply Nat.eqb_eq in X. destruct (f_out f (rf sf)) as [r'|] eqn:O'; [|discriminate]. apply rval_eqb_eq in O. subst r'.
  exists t. eapply cr_ret; eauto. eapply ran_mp with (s0 := mkst O g None); eauto.
Qed.
Definition bytes (l : list (Z * Z)) : mem := fun x => match find (fun p => fst p =? x) l with Some (_, b) => b mod 256 | None => 0 end.
Lemma bytes_wf l : wf_mem (bytes l).
Proof. intros x. unfold bytes. destruct (find _ l) as [[? b]|]; [apply Z.mod_pos_bound; lia|lia]. Qed.
Lemma oracles_wf (l : list (list (Z * Z) * bool * Z)) : wf_oracles (map (fun '(b, ok, j) => mkor (bytes b) ok j) l).
Proof. apply Forall_forall. intros o H. apply in_map_iff in H. destruct H as ([[b ok] j] & <- & _). apply bytes_wf. Qed.

Definition rv64 := {| rv_w := 64; rv_uw := 64; rv_a := true; rv_zaamo := true; rv_zabha := false |}.
(* u8 swap at 0x1003 (the top byte of a word): the operand register has garbage above the byte's 32-bit view; the first store-conditional
   fails because another thread changed the neighbour 0x1002 after the load, and the cell too before the second load *)
Definition ex_os : list oracle := map (fun '(b, ok, j) => mkor (bytes b) ok j)
  (repeat ([(0x1003, 0x77)], true, 0) 4 ++ repeat ([(0x1003, 0x77); (0x1002, 0x11)], true, 7) 5 ++ repeat ([(0x1003, 0x99); (0x1002, 0x11)], true, 0) 20).
Definition ex_regs (r : reg) : Z := match r with Dst => 0x1000 | Shift => 0x8018 (* = 8 * 0x1003; shifts use the low five bits *) | Mask => 255 | Val => 0xdeadbeef0000005a | _ => 0 end.
Example swap_u8_retries : exists t, call_run (Riscv rv64) (OSwap 1 SeqCst 0x1003 0x5a) t (Returned (RVal 0x99)).
Proof.
  eapply call_example with (os := ex_os) (g := ex_regs); [reflexivity|reflexivity|reflexivity|apply oracles_wf| |vm_compute; reflexivity].
  vm_compute. repeat split; try congruence.
Qed.
Example swap_u8_args : t_wf (Riscv rv64) /\ op_args (Riscv rv64) (OSwap 1 SeqCst 0x1003 0x5a) /\ op_broken (Riscv rv64) (OSwap 1 SeqCst 0x1003 0x5a) = false.
Proof. split; [right; split; [reflexivity|left; reflexivity]|]. split; [|reflexivity]. split; [split; [|reflexivity]|]; vm_compute; split; congruence. Qed.
(* hence, by C03, that execution has one instant at which the cell goes from 0x99 to 0x5a *)
Example swap_u8_instant : exists t, call_run (Riscv rv64) (OSwap 1 SeqCst 0x1003 0x5a) t (Returned (RVal 0x99)) /\
  one_instant t (fun m m' => cell_is LE 0x1003 1 0x99 m /\ becomes LE 0x1003 1 0x5a m m').
Proof.
  destruct swap_u8_retries as [t R]. destruct swap_u8_args as (W & (C & V) & _). exists t. split; auto.
  destruct (C03_swap_atomic _ _ _ _ _ _ _ W C V R) as (old & E & I). injection E as <-. exact I.
Qed.
(* two threads in the system of C07, one of them in the middle of a sub-word swap when the other returns *)
Inductive act := DoInv (t : nat) (c : op) (g : regs) | DoStep (t : nat) (ok : bool) (j : Z) | DoRet (t : nat).
Definition act_ok (T : arch) (a : act) : Prop :=
  match a with
  | DoInv _ c g => op_args T c /\ op_broken T c = false /\ op_pre T c = Ret tt /\ match op_impl T c with Impl f => f_in f g | _ => False end
  | _ => True end.
Definition do_act (T : arch) (S : sys) (a : act) : option (event * sys) :=
  match a with
  | DoInv t c g =>
      match s_thr S t, op_impl T c with
      | None, Impl f => Some (EInv t (s_next S) c, mksys (s_mem S) (setthr (s_thr S) t (Some (mkfly (s_next S) c f (mkst O g None)))) (Datatypes.S (s_next S)))
      | _, _ => None end
  | DoStep t ok j =>
      match s_thr S t with
      | Some (mkfly k c f s) =>
          match nth_error (f_prog f) (pc s) with
          | Some i => match exec (t_e T) (f_prog f) i (mkor (s_mem S) ok j) s with
                      | Some (s', m') => Some (EStep k (s_mem S, m'), mksys m' (setthr (s_thr S) t (Some (mkfly k c f s'))) (s_next S))
                      | None => None end
          | None => None end
      | None => None end
  | DoRet t =>
      match s_thr S t with
      | Some (mkfly k c f s) =>
          if Nat.eqb (pc s) (length (f_prog f)) then
            match f_out f (rf s) with Some r => Some (ERet k r, mksys (s_mem S) (setthr (s_thr S) t None) (s_next S)) | None => None end
          else None
      | None => None end
  end.
Fixpoint do_acts (T : arch) (S : sys) (l : list act) : option (list event * sys) :=
  match l with
  | [] => Some ([], S)
  | a :: l' => match do_act T S a with
               | Some (e, S1) => match do_acts T S1 l' with Some (h, S2) => Some (e :: h, S2) | None => None end
               | None => None end
  end.
Lemma do_act_sound T S a e S' : act_ok T a -> do_act T S a = Some (e, S') -> step T S e S'.
Proof.
  destruct a as [t c g|t ok j|t]; cbn [act_ok do_act]; intros Ha H.
  - destruct (s_thr S t) eqn:E; [discriminate|]. destruct (op_impl T c) as [| |f] eqn:I; try discriminate. injection H as <- <-.
    destruct Ha as (A1 & A2 & A3 & A4).
    pose proof (s_inv T S t c f (mkst O g None) E A1 A3 I eq_refl A4) as X. rewrite (as_done_id T c A2) in X. exact X.
  - destruct (s_thr S t) as [[k c f s]|] eqn:E; [|discriminate]. destruct (nth_error _ _) as [i|] eqn:N; [|discriminate].
    destruct (exec _ _ _ _ _) as [[s' m']|] eqn:X; [|discriminate]. injection H as <- <-. eapply s_step; eauto.
  - destruct (s_thr S t) as [[k c f s]|] eqn:E; [|discriminate]. destruct (Nat.eqb_spec (pc s) (length (f_prog f))) as [L|]; [|discriminate].
    destruct (f_out f (rf s)) as [r|] eqn:O; [|discriminate]. injection H as <- <-. eapply s_ret; eauto.
Qed.
Lemma do_acts_sound T l : Forall (act_ok T) l -> forall S h S', do_acts T S l = Some (h, S') -> steps T S h S'.
Proof.
  intros F. induction F as [|a l Ha F IH]; cbn [do_acts]; intros S h S' H; [injection H as <- <-; apply steps_nil|].
  destruct (do_act T S a) as [[e S1]|] eqn:E; [|discriminate]. destruct (do_acts T S1 l) as [[h2 S2]|] eqn:E2; [|discriminate].
  injection H as <- <-. eapply steps_cons; [eapply do_act_sound; eauto|eauto].
Qed.
Definition ex_acts : list act :=
  [DoInv 0 (OSwap 1 SeqCst 0x1003 0x5a) ex_regs] ++ repeat (DoStep 0 true 0) 7 ++
  [DoInv 1 (OLoad 4 Relaxed 0x1000) (fun r => match r with Src => 0x1000 | _ => 0 end)] ++ repeat (DoStep 1 true 0) 3 ++
  [DoStep 0 true 0; DoRet 1; DoStep 0 true 0].
Example system_runs : exists h S, steps (Riscv rv64) (init (bytes [])) h S /\ In (ERet 1 (RVal 0)) h /\ (exists k c f s, s_thr S 0%nat = Some (mkfly k c f s) /\ pc s = 9%nat) /\ s_mem S 0x1003 = 0x5a.
Proof.
  pose proof swap_u8_args as (W & A0 & B0).
  assert (Forall (act_ok (Riscv rv64)) ex_acts) as F.
  { unfold ex_acts. cbn [app repeat]. apply Forall_cons; [|repeat (apply Forall_cons; [exact I|]); apply Forall_cons; [|repeat (apply Forall_cons; [exact I|]); apply Forall_nil]].
    - split; [exact A0|]. split; [exact B0|]. split; [reflexivity|]. vm_compute. repeat split; congruence.
    - split; [split; [vm_compute; split; congruence|reflexivity]|]. split; [reflexivity|]. split; [reflexivity|]. vm_compute. reflexivity. }
  destruct (do_acts (Riscv rv64) (init (bytes [])) ex_acts) as [[h S]|] eqn:E.
  2:{ exfalso. assert (match do_acts (Riscv rv64) (init (bytes [])) ex_acts with Some _ => true | None => false end = true) as X by (vm_compute; reflexivity). rewrite E in X. discriminate X. }
  exists h, S. split; [exact (do_acts_sound _ _ F _ _ _ E)|].
  assert (match do_acts (Riscv rv64) (init (bytes [])) ex_acts with
          | Some (h, S0) => existsb (fun e => match e with ERet 1%nat (RVal 0) => true | _ => false end) h &&
              match s_thr S0 0%nat with Some (mkfly _ _ _ s) => Nat.eqb (pc s) 9 | None => false end && (s_mem S0 0x1003 =? 0x5a)
          | None => false end = true) as X by (vm_compute; reflexivity).
  rewrite E in X. clear E F. apply andb_prop in X. destruct X as [X X3]. apply andb_prop in X. destruct X as [X1 X2]. split; [|split].
  - apply existsb_exists in X1. destruct X1 as (e & I & He). destruct e as [| |k r|]; try discriminate He. destruct k as [|[|]]; try discriminate He.
    destruct r as [v| |]; try discriminate He. destruct v; try discriminate He. exact I.
  - destruct (s_thr S 0%nat) as [[k c f s]|]; [|discriminate]. exists k, c, f, s. split; auto. now apply Nat.eqb_eq.
  - lia.
Qed.
(* panics: an ordering that makes no sense; a 64-bit store on a kernel without the helper *)
Example load_release_panics : call_run (Riscv rv64) (OLoad 4 Release 0x1000) [] Panicked /\ senseless (OLoad 4 Release 0x1000).
Proof. split; [apply cr_panic; reflexivity|left; reflexivity]. Qed.
Example old_kernel_panics : call_run (ArmLinux LE 0x8000 4) (OStore 8 SeqCst 0x1000 5) [] Panicked.
Proof. apply cr_panic. reflexivity. Qed.
(* AVR 16-bit swap called with interrupts enabled: a handler ran after the first and before the last instruction *)
Example avr_swap16_runs : exists f t cur sf, op_impl (Avr false false) (OSwap 2 SeqCst 0x100 0xbeef) = Impl f /\
  (exists os s0, wf_oracles os /\ f_in f (rf s0) /\ av_ie (rf s0) = true /\ run_irq LE (f_prog f) av_ie os None s0 = Some (t, cur, sf)) /\
  at_exit (f_prog f) sf /\ f_out f (rf sf) = Some (RVal 0x1234).
Proof.
  eexists. eexists. eexists. eexists. split; [reflexivity|]. split.
  - exists (map (fun '(b, ok, j) => mkor (bytes b) ok j) ([([], true, 0); ([(0x101, 0x12); (0x100, 0x34)], true, 0)] ++ repeat ([], true, 0) 9)),
      (mkst O (fun r => match r with Dst => 0x100 | Val => 0xef | ValHi => 0xbe | SREG => 0x82 | _ => 0 end) None).
    split; [apply oracles_wf|]. split; [|split; [reflexivity|cbn; reflexivity]].
    cbn. unfold av_sreg, av_val. cbn. repeat split; try reflexivity; try lia.
  - split; [unfold at_exit; cbn; lia|vm_compute; reflexivity].
Qed.

(* the same with an older compiler (src/arch_legacy/loongarch.rs): u8 compare_exchange at 0x1003 with its arguments and result in local
   buffers; the first store-conditional fails because the neighbour changed, the second succeeds *)
From Verif Require Import Legacy Arch_loongarch Arch_loongarchl.
Definition la64 := LoongarchL {| la_uw := 64 |} (mkbufs 0x7000 0x7010 0x7020 0x7030).
Definition lal_os : list oracle := map (fun '(b, ok, j) => mkor (bytes b) ok j)
  (repeat ([(0x1003, 0x99)], true, 0) 12 ++ repeat ([(0x1003, 0x99); (0x1002, 0x11)], true, 7) 30).
Definition lal_regs (r : reg) : Z := match r with Dst => 0x1000 | Shift => 0x8018 | Mask => 255 | Old => 0x7010 | New => 0x7020 | OutP => 0x7030 | _ => 0 end.
Example legacy_cas_u8 : exists t, call_run la64 (OCas 1 SeqCst Relaxed 0x1003 0x99 0x5a) t (Returned (RCas 0x99 true)).
Proof.
  eapply call_example with (os := lal_os) (g := lal_regs); [reflexivity|reflexivity|reflexivity|apply oracles_wf| |vm_compute; reflexivity].
  vm_compute. repeat split; try congruence.
Qed.
Example legacy_cas_args : t_wf la64 /\ op_args la64 (OCas 1 SeqCst Relaxed 0x1003 0x99 0x5a) /\ op_broken la64 (OCas 1 SeqCst Relaxed 0x1003 0x99 0x5a) = false.
Proof. split; [left; reflexivity|]. split; [|reflexivity]. split; [split; [|reflexivity]|split]; vm_compute; split; congruence. Qed.
Example legacy_old_kernel_panics : call_run (ArmLinuxL LE (mkbufs 0x7000 0x7010 0x7020 0x7030) 4) (OStore 8 SeqCst 0x1000 5) [] Panicked.
Proof. apply cr_panic. reflexivity. Qed.
