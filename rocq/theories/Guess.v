(* C30: the plain loads with which a store or swap loop obtains its first guess, replaced by an arbitrary value. *)
From Verif Require Export Spec.

(* what a load of [sz] bytes can leave in its register: any value of the width that the load defines *)
Definition any_loaded (sz : Z) (x : ext) (j : Z) : Z :=
  match x with XZ => low (8 * sz) j | XSg w | XJ w => low w j end.
(* every plain (non-linked) load yields an arbitrary value, unrelated to memory: stale, torn between two writes, with its halves
   exchanged, or never stored by anybody *)
Definition guess_instr (i : instr) : instr :=
  match i with Ld sz x _ r _ _ => Op r (fun j _ => any_loaded sz x j) [] | _ => i end.
Definition guessed {A} (f : fn A) : fn A := mkfnl (map guess_instr (f_prog f)) (f_in f) (f_out f) (f_clob f) (f_late f).
(* the number of plain loads of a block *)
Definition plain_loads {A} (f : fn A) : nat :=
  length (filter (fun i => match i with Ld _ _ _ _ _ _ => true | _ => false end) (f_prog f)).
Lemma guess_none {A} (f : fn A) : plain_loads f = O -> guessed f = f.
Proof.
  destruct f as [p i o c]. unfold plain_loads, guessed. cbn [f_prog f_in f_out f_clob]. intros H. f_equal.
  induction p as [|x p IH]; [reflexivity|]. cbn [map filter] in *. destruct x; cbn [guess_instr length] in *; try discriminate; now rewrite IH.
Qed.
