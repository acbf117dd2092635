(* C38, C39: data protected by locks. *)
From Verif Require Import SeqCst Prop_order Replay Prop_sc CallLink Prop_mp Prop_hb Prop_lock Merge Prop_drf.

(* the accesses come inside critical sections of one lock *)
Definition common_lock (T : arch) (G : graph) (x y : eid) : Prop := exists a n t1 l1 u1 t2 l2 u2,
  lock_client T G a n /\ holds T G a n t1 l1 u1 /\ inside G x t1 l1 u1 /\ holds T G a n t2 l2 u2 /\ inside G y t2 l2 u2.
(* any two conflicting accesses of code outside the library being in sections of a common lock (not always the same), the data behaves as under an
   interleaving of the threads *)
Theorem C39_locked_data T G : t_ie T = None -> t_wf T -> execution T G -> race_free G (common_lock T G) ->
  exists mf, merged plain_step (fun t => plains (g_thr G t)) (g_init G) mf /\
    forall b, (forall t q c r its, call_at G t q c r its -> ~ in_cell c b) ->
      ((forall w, ~ writes_b G w b) -> mf b = g_init G b) /\
      (forall w v, ev_at G w v -> e_w v = true -> covers v b -> (forall w', ~ g_co G b w w') -> mf b = e_b v b).
Proof.
  intros Ie W X [Or Ce Wh Fi]. apply (C39_race_free_data T G Ie W X). constructor; auto. intros x y C Ne.
  assert (forall x y, fst x <> fst y -> common_lock T G x y -> happens_before G x y \/ happens_before G y x) as K.
  { clear x y C Ne. intros x y Ne (a & n & t1 & l1 & u1 & t2 & l2 & u2 & L & H1 & I1 & H2 & I2). destruct (C38_mutual_exclusion T G a n Ie W X L t1 l1 u1 t2 l2 u2 H1 H2) as [Q|Q]; auto.
    intros E. injection E as E _. apply Ne. destruct I1 as [[I1 _] _], I2 as [[I2 _] _]. congruence. }
  destruct (Or x y C Ne) as [H|H]; [exact (K x y Ne H)|]. destruct (K y x) as [Q|Q]; auto.
Qed.
