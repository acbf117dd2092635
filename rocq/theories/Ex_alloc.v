(* C35 for weak memory is about something: message passing whose load gets the register of its address for the value it reads. *)
From Verif Require Import Api All_misc Order Graph Prop_foot Alloc AllocAll AllocItems Prop_alloc Prop_alloc3 Prop_ops Prop_mp Ex_graph Examples.
From Verif Require Import Arch_riscv Arch_powerpc.

Lemma alloc_example T g c its f os h r : op_args T c -> op_pre T c = Ret tt -> op_impl T c = Impl f -> permitted g f -> wf_oracles os -> f_in (alloc g f) h ->
  match irun (arch_mm T) (t_e T) (f_prog (alloc g f)) os (mkst O h None) tn0 with
  | Some (_, sf) => Nat.eqb (pc sf) (length (f_prog (alloc g f))) && match f_out (alloc g f) (rf sf) with Some r' => rval_eqb r' r | None => false end
  | None => false end = true ->
  its = match irun (arch_mm T) (t_e T) (f_prog (alloc g f)) os (mkst O h None) tn0 with Some (l, _) => l | None => [] end -> alloc_items T g c its r.
Proof.
  intros A P I Pm W Hi H ->. destruct (irun _ _ _ _ _ _) as [[l sf]|] eqn:R; [|discriminate]. apply andb_prop in H. destruct H as [X O].
  apply Nat.eqb_eq in X. destruct (f_out (alloc g f) (rf sf)) as [r'|] eqn:O'; [|discriminate]. apply rval_eqb_eq in O. subst r'.
  eapply ai with (s0 := mkst O h None); eauto.
Qed.
(* [Src] = 0x2000 is also where the value read is put *)
Definition alloc_met (T : arch) : Prop := execution T (mp_of T) /\ alloc_execution T (mp_of T) /\
  exists q f, call_at (mp_of T) 1 q ld_c (RVal 7) (its_of T ld_c (ld_os (t_e T)) mg) /\ op_impl T ld_c = Impl f /\ In Out (f_clob f) /\ alloc_items T (share Out Src) ld_c (its_of T ld_c (ld_os (t_e T)) mg) (RVal 7).
Lemma alloc_met_by T f : met T -> alloc_items T (fun r => r) st_c (its_of T st_c st_os mg) RUnit -> op_impl T ld_c = Impl f -> In Out (f_clob f) ->
  alloc_items T (share Out Src) ld_c (its_of T ld_c (ld_os (t_e T)) mg) (RVal 7) -> alloc_met T.
Proof.
  intros (W & X & _) C1 Hi Hc C2. split; [exact X|]. split; [|exists O, f; split; [reflexivity|auto]]. constructor; [|exact (ex_sane _ _ X)|exact (ex_mm _ _ X)]. intros t q c r its H.
  destruct t as [|[|t]]; cbn in H.
  - destruct q as [|[|q]]; cbn in H; [discriminate H| |destruct q; discriminate H]. injection H as <- <- <-. exists (fun r => r). exact C1.
  - destruct q as [|[|q]]; cbn in H; [|discriminate H|destruct q; discriminate H]. injection H as <- <- <-. exists (share Out Src). exact C2.
  - destruct q; discriminate H.
Qed.
Ltac ameet := eapply alloc_met_by; [| |reflexivity|cbn; tauto|].
Ltac al o := eapply alloc_example with (h := mg) (os := o); [vm_compute; repeat split; congruence|reflexivity|reflexivity|first [apply id_permitted|apply share_permitted; notin]|apply oracles_wf|vm_compute; repeat split; congruence|vm_compute; reflexivity|vm_compute; reflexivity].
Example alloc_riscv : alloc_met (Riscv rv64).
Proof. ameet; [exact mp_riscv|al st_os|al (ld_os LE)]. Qed.
Example alloc_powerpc : alloc_met (Powerpc pp64).
Proof. ameet; [exact mp_powerpc|al st_os|al (ld_os BE)]. Qed.
