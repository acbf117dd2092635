(* Non-vacuity of C08: a partially uninitialised value stored by one thread and loaded by another. *)
From Verif Require Import Foot.
From Verif Require Import Api Layout Prop_layout Conc ConcProofs All_atomic PropSpec Prop_bytes Examples.
From Verif Require Import Arch_riscv.

(* struct { a: u8, b: u8 } with padding: bytes 0 and 2 initialised, 1 and 3 not; the register happens to hold 0xcc and 0xdd there *)
Definition ex_val : aval := [Some 0x11; None; Some 0x33; None].
Definition byte_acts : list act :=
  [DoInv 0 (OStore 4 Relaxed 0x1000 0xdd33cc11) (fun r => match r with Dst => 0x1000 | Val => 0xdd33cc11 | _ => 0 end)] ++ repeat (DoStep 0 true 0) 3 ++ [DoRet 0] ++
  [DoInv 1 (OLoad 4 Relaxed 0x1000) (fun r => match r with Src => 0x1000 | _ => 0 end)] ++ repeat (DoStep 1 true 0) 3 ++ [DoRet 1].
Definition ex_args (k : nat) : args := match k with O => AVal ex_val | _ => ANone end.
Example byte_run : exists h S, steps (Riscv rv64) (init (bytes [])) h S /\ In (ERet 1 (RVal 0xdd33cc11)) h /\
  (forall t k c, In (EInv t k c) h -> passes (t_e (Riscv rv64)) (ex_args k) c) /\ t_ie (Riscv rv64) = None /\ t_wf (Riscv rv64) /\ wf_mem (bytes []) /\
  (forall a x, (fun _ : Z => Some 0) a = Some x -> bytes [] a = x).
Proof.
  pose proof swap_u8_args as (W & _).
  assert (Forall (act_ok (Riscv rv64)) byte_acts) as F.
  { unfold byte_acts. cbn [app repeat]. apply Forall_cons; [|repeat (apply Forall_cons; [exact I|]); apply Forall_cons; [|repeat (apply Forall_cons; [exact I|]); apply Forall_nil]].
    - split; [split; [split; [vm_compute; split; congruence|reflexivity]|vm_compute; split; congruence]|]. split; [reflexivity|]. split; [reflexivity|]. vm_compute. repeat split; congruence.
    - split; [split; [vm_compute; split; congruence|reflexivity]|]. split; [reflexivity|]. split; [reflexivity|]. vm_compute. reflexivity. }
  destruct (do_acts (Riscv rv64) (init (bytes [])) byte_acts) as [[h S]|] eqn:E.
  2:{ exfalso. assert (match do_acts (Riscv rv64) (init (bytes [])) byte_acts with Some _ => true | None => false end = true) as X by (vm_compute; reflexivity). rewrite E in X. discriminate X. }
  exists h, S. split; [exact (do_acts_sound _ _ F _ _ _ E)|].
  assert (match do_acts (Riscv rv64) (init (bytes [])) byte_acts with
          | Some (h, _) => existsb (fun e => match e with ERet 1%nat (RVal z) => z =? 0xdd33cc11 | _ => false end) h &&
              forallb (fun e => match e with EInv _ k (OStore 4 _ _ z) => (z =? 0xdd33cc11) && Nat.eqb k 0 | EInv _ k (OLoad _ _ _) => Nat.eqb k 1 | EInv _ _ _ => false | _ => true end) h
          | None => false end = true) as X by (vm_compute; reflexivity).
  rewrite E in X. clear E F. apply andb_prop in X. destruct X as [X1 X2]. split; [|split].
  - apply existsb_exists in X1. destruct X1 as (e & I & He). destruct e as [| |k r|]; try discriminate He. destruct k as [|[|]]; try discriminate He.
    destruct r as [v| |]; try discriminate He. apply Z.eqb_eq in He. subst v. exact I.
  - intros t k c I. rewrite forallb_forall in X2. apply X2 in I. destruct c as [n o a|n o a z| | |]; try discriminate I.
    + apply Nat.eqb_eq in I. subst k. exact Logic.I.
    + destruct n as [|[|[[]|[]|]|]|]; try discriminate I. apply andb_prop in I. destruct I as [I1 I2]. apply Z.eqb_eq in I1. apply Nat.eqb_eq in I2. subst.
      split; [reflexivity|]. exists [0x11; 0xcc; 0x33; 0xdd]. split; [|reflexivity].
      repeat (constructor; [split; [split; lia|auto]|]). constructor.
  - split; [reflexivity|]. split; [exact W|]. split; [apply bytes_wf|]. intros a x H. injection H as <-. reflexivity.
Qed.
