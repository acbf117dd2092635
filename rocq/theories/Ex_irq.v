(* A concrete schedule for Prop_irq: the main program is inside a 16-bit AVR swap when a handler runs. *)
From Verif Require Import Foot ConcIrq ConcIrqProofs Prop_irq Examples Irq Arch_avr Target.

Definition free (ie : regs -> bool) (S : sys) (t : nat) : bool :=
  forallb (fun t' => Nat.eqb t' t || match s_thr S t' with Some x => ie (rf (k_st x)) | None => true end) [0%nat; 1%nat].
Definition act_thr (a : act) : nat := match a with DoInv t _ _ => t | DoStep t _ _ => t | DoRet t => t end.
Fixpoint do_iacts (T : arch) (ie : regs -> bool) (S : sys) (l : list act) : option (list event * sys) :=
  match l with
  | [] => Some ([], S)
  | a :: l' => if free ie S (act_thr a) then
                 match do_act T S a with
                 | Some (e, S1) => match do_iacts T ie S1 l' with Some (h, S2) => Some (e :: h, S2) | None => None end
                 | None => None end
               else None
  end.
Definition two (S : sys) : Prop := forall t, (2 <= t)%nat -> s_thr S t = None.
Lemma free_sound ie S t : two S -> free ie S t = true -> may_run ie S t.
Proof.
  intros Tw F t' x N H. unfold free in F. rewrite forallb_forall in F. destruct (le_lt_dec 2 t') as [L|L]; [rewrite (Tw t' L) in H; discriminate|].
  assert (In t' [0%nat; 1%nat]) as J by (destruct t' as [|[|]]; cbn; auto; lia). specialize (F t' J). apply orb_prop in F. destruct F as [F|F]; [apply Nat.eqb_eq in F; contradiction|now rewrite H in F].
Qed.
Lemma do_iact_sound T ie S a e S' : two S -> (act_thr a < 2)%nat -> act_ok T a -> free ie S (act_thr a) = true -> do_act T S a = Some (e, S') -> istep T ie S e S' /\ two S'.
Proof.
  intros Tw Lt Ha Fr H. pose proof (free_sound _ _ _ Tw Fr) as M. destruct a as [t c g|t ok j|t]; cbn [act_thr act_ok do_act] in *.
  - destruct (s_thr S t) eqn:E; [discriminate|]. destruct (op_impl T c) as [| |f] eqn:I; try discriminate. injection H as <- <-.
    destruct Ha as (A1 & A2 & A3 & A4). split; [eapply is_inv; eauto|]. intros x Hx. cbn. unfold setthr. destruct (Nat.eqb_spec x t); [lia|auto].
  - destruct (s_thr S t) as [[k c f s]|] eqn:E; [|discriminate]. destruct (nth_error _ _) as [i|] eqn:N; [|discriminate].
    destruct (exec _ _ _ _ _) as [[s' m']|] eqn:X; [|discriminate]. injection H as <- <-. split; [eapply is_step; eauto|].
    intros x Hx. cbn. unfold setthr. destruct (Nat.eqb_spec x t); [lia|auto].
  - destruct (s_thr S t) as [[k c f s]|] eqn:E; [|discriminate]. destruct (Nat.eqb_spec (pc s) (length (f_prog f))) as [L|]; [|discriminate].
    destruct (f_out f (rf s)) as [r|] eqn:O; [|discriminate]. injection H as <- <-. split; [eapply is_ret; eauto|].
    intros x Hx. cbn. unfold setthr. destruct (Nat.eqb_spec x t); [lia|auto].
Qed.
Lemma do_iacts_sound T ie l : Forall (fun a => act_ok T a /\ (act_thr a < 2)%nat) l -> forall S h S', two S -> do_iacts T ie S l = Some (h, S') -> isteps T ie S h S'.
Proof.
  intros F. induction F as [|a l [Ha Lt] F IH]; cbn [do_iacts]; intros S h S' Tw H; [injection H as <- <-; apply isteps_nil|].
  destruct (free ie S (act_thr a)) eqn:Fr; [|discriminate].
  destruct (do_act T S a) as [[e S1]|] eqn:E; [|discriminate]. destruct (do_iacts T ie S1 l) as [[h2 S2]|] eqn:E2; [|discriminate].
  injection H as <- <-. destruct (do_iact_sound _ _ _ _ _ _ Tw Lt Ha Fr E) as [St Tw']. eapply isteps_cons; [exact St|eauto].
Qed.
(* main: swap a u16, one instruction executed (SREG saved), interrupts still enabled; a handler with interrupts masked loads the same
   cell and returns; main masks interrupts and goes on, until the whole exchange is done but its masked section still open *)
Definition irq_acts : list act :=
  [DoInv 0 (OSwap 2 SeqCst 0x100 0xbeef) (fun r => match r with Dst => 0x100 | Val => 0xef | ValHi => 0xbe | SREG => 0x82 | _ => 0 end);
   DoStep 0 true 0;
   DoInv 1 (OLoad 2 SeqCst 0x100) (fun r => match r with Src => 0x100 | SREG => 2 | _ => 0 end)] ++ repeat (DoStep 1 true 0) 5 ++ [DoRet 1] ++ repeat (DoStep 0 true 0) 5.
Lemma iacts_check T ie S0 l (chk : list event * sys -> bool) : Forall (fun a => act_ok T a /\ (act_thr a < 2)%nat) l -> two S0 ->
  match do_iacts T ie S0 l with Some x => chk x | None => false end = true -> exists h S, isteps T ie S0 h S /\ chk (h, S) = true.
Proof. intros F Tw H. destruct (do_iacts T ie S0 l) as [[h S]|] eqn:E; [|discriminate]. exists h, S. split; auto. eapply do_iacts_sound; eauto. Qed.
Definition irq_chk (x : list event * sys) : bool :=
  existsb (fun e => match e with ERet 1%nat (RVal v) => v =? 0x1234 | _ => false end) (fst x) &&
  match s_thr (snd x) 0%nat with Some x => Nat.eqb (pc (k_st x)) 6 && negb (av_ie (rf (k_st x))) | None => false end && (s_mem (snd x) 0x100 =? 0xef).
Lemma irq_chk_sound h S : irq_chk (h, S) = true -> In (ERet 1 (RVal 0x1234)) h /\
  (exists x, s_thr S 0%nat = Some x /\ pc (k_st x) = 6%nat /\ av_ie (rf (k_st x)) = false) /\ s_mem S 0x100 = 0xef.
Proof.
  unfold irq_chk. cbn [fst snd]. intros X. apply andb_prop in X. destruct X as [X X3]. apply andb_prop in X. destruct X as [X1 X2]. split; [|split].
  - apply existsb_exists in X1. destruct X1 as (e & I & He). destruct e as [| |k r|]; try discriminate He. destruct k as [|[|]]; try discriminate He.
    destruct r as [v| |]; try discriminate He. apply Z.eqb_eq in He. now subst v.
  - destruct (s_thr S 0%nat) as [x|]; [|discriminate]. exists x. split; auto. apply andb_prop in X2. destruct X2 as [P M]. apply Nat.eqb_eq in P. apply negb_true_iff in M. auto.
  - now apply Z.eqb_eq.
Qed.
Lemma irq_ok1 : act_ok (Avr false false) (nth 0 irq_acts (DoRet 0)).
Proof. unfold irq_acts. cbn [nth app]. split; [vm_compute; repeat split; congruence|]. split; [reflexivity|]. split; [reflexivity|]. vm_compute. repeat split; congruence. Qed.
Lemma irq_ok2 : act_ok (Avr false false) (nth 2 irq_acts (DoRet 0)).
Proof. unfold irq_acts. cbn [nth app]. split; [vm_compute; repeat split; congruence|]. split; [reflexivity|]. split; [reflexivity|]. vm_compute. repeat split; congruence. Qed.
Lemma irq_acts_ok : Forall (fun a => act_ok (Avr false false) a /\ (act_thr a < 2)%nat) irq_acts.
Proof.
  pose proof irq_ok1 as H1. pose proof irq_ok2 as H2. unfold irq_acts in *. cbn [app repeat nth] in *.
  repeat (apply Forall_cons; [split; [first [exact H1|exact H2|exact I]|cbn; lia]|]). apply Forall_nil.
Qed.
Example irq_runs : exists h S, isteps (Avr false false) av_ie (init (bytes [(0x100, 0x34); (0x101, 0x12)])) h S /\ In (ERet 1 (RVal 0x1234)) h /\
  (exists x, s_thr S 0%nat = Some x /\ pc (k_st x) = 6%nat /\ av_ie (rf (k_st x)) = false) /\ s_mem S 0x100 = 0xef.
Proof.
  destruct (iacts_check (Avr false false) av_ie (init (bytes [(0x100, 0x34); (0x101, 0x12)])) irq_acts irq_chk irq_acts_ok) as (h & S & St & C).
  - intros t _. reflexivity.
  - vm_compute. reflexivity.
  - exists h, S. split; [exact St|]. exact (irq_chk_sound h S C).
Qed.
