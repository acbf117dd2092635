(* C43 and C42_program_apart are about something: accesses in the cell, and in the word around it. *)
From Verif Require Import Interleave CallLink Prop_sc Ex_graph Ex_sc Ex_mp Ex_hb SeqCst Prop_order Examples Prop_mp Prop_hb Ex_lock Merge Prop_drf Prop_drfsc Ex_drf Prop_drfprog Prop_lock Prop_locksc Ex_locksc Prop_lockprog Ex_lockprog Prop_foot Prop_lockapart.
From Verif Require Import Arch_riscv Arch_powerpc Arch_aarch64.

Example the_lock_apart : locks_apart the_lock /\ (forall a n, the_lock a n -> a mod n = 0).
Proof. split; [constructor; [intros a n [-> ->]; right; right; now left|intros a n a' n' b [-> ->] [-> ->] _ _; reflexivity]|intros a n [-> ->]; reflexivity]. Qed.
Example apart_riscv : own_locks (lk_of (Riscv rv64)) the_lock.
Proof.
  destruct lprog_riscv as (Ie & W & Pg & _ & O & X & HP & _). exact (C42_own_locks _ _ _ _ W Pg (proj1 the_lock_apart) (proj2 the_lock_apart) X HP (ol_init _ _ O)).
Qed.

(* a store of 4 bytes *)
Example st_own : exists v, In (IE v) (its_of (Riscv rv64) st_B st_os (rgs 0x3000)) /\ e_w v = true /\ stays v 0x3000 4.
Proof.
  assert (call_items (Riscv rv64) st_B (its_of (Riscv rv64) st_B st_os (rgs 0x3000)) RUnit) as C by item.
  exists (nth_ev (its_of (Riscv rv64) st_B st_os (rgs 0x3000)) (hd O (evs (its_of (Riscv rv64) st_B st_os (rgs 0x3000)) 0))). split; [|split; [vm_compute; reflexivity|]].
  - apply (nth_error_In _ (hd O (evs (its_of (Riscv rv64) st_B st_os (rgs 0x3000)) 0))). vm_compute. reflexivity.
  - intros b Hb. vm_compute in Hb. exact Hb.
Qed.
(* a swap of the byte at 0x2002, not the first of its word: the accesses are of the word *)
Definition sw_c := OSwap 1 SeqCst 0x2002 7.
Definition sw_g : regs := fun r => match r with Dst => 0x2000 | Shift => 65552 | Mask => 255 | Val => 7 | _ => 0 end.
Definition sw_its := its_of (Riscv rv64) sw_c st_os sw_g.
Example sw_word : accessed (Riscv rv64) sw_c sw_its /\ exists v, In (IE v) sw_its /\ e_w v = true /\ ~ stays v 0x2002 1 /\ stays v 0x2000 4.
Proof.
  assert (call_items (Riscv rv64) sw_c sw_its (RVal 0)) as C by (unfold sw_its; item). split; [exact (call_accessed _ _ _ _ C)|].
  exists (nth_ev sw_its (last (evs sw_its 0) O)). split; [apply (nth_error_In _ (last (evs sw_its 0) O)); vm_compute; reflexivity|]. split; [vm_compute; reflexivity|]. split.
  - intros S. specialize (S 0x2000). vm_compute in S. destruct S as [S _]; [split; [discriminate|reflexivity]|]. now apply S.
  - intros b Hb. vm_compute in Hb. exact Hb.
Qed.
