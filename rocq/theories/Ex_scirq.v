(* A run that meets the hypotheses of C26_irq_interleaving. *)
From Verif Require Import Interleave Prop_scirq Foot ConcIrq ConcIrqProofs Prop_irq Examples Ex_irq Irq Arch_avr Target.

(* as [irq_acts], until both calls have returned *)
Definition irq_full : list act := irq_acts ++ [DoStep 0 true 0; DoRet 0].
Lemma irq_full_ok : Forall (fun a => act_ok (Avr false false) a /\ (act_thr a < 2)%nat) irq_full.
Proof. apply Forall_app. split; [exact irq_acts_ok|]. repeat (apply Forall_cons; [split; [exact Logic.I|cbn; lia]|]). apply Forall_nil. Qed.
Lemma two_steps T ie S0 h S : isteps T ie S0 h S -> (forall t k c, In (EInv t k c) h -> (t < 2)%nat) -> two S0 -> two S.
Proof.
  induction 1 as [S0|S0 e S1 l S2 H _ IH]; intros K Tw; [exact Tw|]. apply IH; [intros t k c I; apply (K t k c); now right|].
  intros x Hx. specialize (Tw x Hx). inversion H; subst; cbn; auto; unfold setthr; destruct (Nat.eqb_spec x t); subst; auto; try congruence.
  specialize (K t (s_next S0) c (or_introl eq_refl)). lia.
Qed.
Definition cr_dec (x y : op * rval) : {x = y} + {x <> y}.
Proof. repeat decide equality. Defined.
Definition main_calls := [(OSwap 2 SeqCst 0x100 0xbeef, RVal 0x1234)].
Definition handler_calls := [(OLoad 2 SeqCst 0x100, RVal 0x1234)].
Definition full_chk (x : list event * sys) : bool :=
  (if list_eq_dec cr_dec (results (fst x) 0) main_calls then if list_eq_dec cr_dec (results (fst x) 1) handler_calls then true else false else false) &&
  match s_thr (snd x) 0%nat, s_thr (snd x) 1%nat with None, None => true | _, _ => false end && (s_mem (snd x) 0x100 =? 0xef) &&
  forallb (fun e => match e with EPlain _ _ => false | EInv t _ _ => (t <? 2)%nat | _ => true end) (fst x).
Example irq_full_runs : exists h S, isteps (Avr false false) av_ie (init (bytes [(0x100, 0x34); (0x101, 0x12)])) h S /\ (forall t, s_thr S t = None) /\ (forall m m', ~ In (EPlain m m') h) /\
  results h 0 = main_calls /\ results h 1 = handler_calls /\ s_mem S 0x100 = 0xef.
Proof.
  destruct (iacts_check (Avr false false) av_ie (init (bytes [(0x100, 0x34); (0x101, 0x12)])) irq_full full_chk irq_full_ok) as (h & S & St & C).
  - intros t _. reflexivity.
  - vm_compute. reflexivity.
  - exists h, S. split; [exact St|]. unfold full_chk in C. cbn [fst snd] in C. apply andb_prop in C. destruct C as [C Cf]. apply andb_prop in C. destruct C as [C Cm]. apply andb_prop in C. destruct C as [Cr Ct].
    rewrite forallb_forall in Cf. split; [|split; [|split; [|split; [|now apply Z.eqb_eq]]]].
    + assert (two S) as Tw. { apply (two_steps _ _ _ _ _ St); [|intros t _; reflexivity]. intros t k c I. specialize (Cf _ I). now apply Nat.ltb_lt in Cf. }
      intros [|[|t]]; [destruct (s_thr S 0%nat); [discriminate Ct|reflexivity]|destruct (s_thr S 0%nat), (s_thr S 1%nat); try discriminate Ct; reflexivity|apply Tw; lia].
    + intros m m' I. specialize (Cf _ I). discriminate Cf.
    + destruct (list_eq_dec cr_dec (results h 0) main_calls) as [E|]; [exact E|discriminate Cr].
    + destruct (list_eq_dec cr_dec (results h 0) main_calls); [|discriminate Cr]. destruct (list_eq_dec cr_dec (results h 1) handler_calls) as [E|]; [exact E|discriminate Cr].
Qed.
