(* C26: what "the results of an interleaving" means. *)
From Verif Require Export Graph NoLost.

(* the calls of a thread and their results *)
Definition calls (l : list seg) : list (op * rval) := flat_map (fun s => match s with Call c r _ => [(c, r)] | Code _ => [] end) l.
(* [P t]: calls thread [t] has still to make and the results they will have.  Some interleaving of the threads, in which each call takes
   effect at once on one memory as [spec] says, has these results and takes the memory from [m] to [mf]. *)
Inductive interleaved (spec : op -> mem -> mem -> rval -> Prop) : (nat -> list (op * rval)) -> mem -> mem -> Prop :=
| il_done P m : (forall t, P t = []) -> interleaved spec P m m
| il_step P P' t c r l m m' mf : P t = (c, r) :: l -> P' t = l -> (forall t', t' <> t -> P' t' = P t') -> spec c m m' r ->
    interleaved spec P' m' mf -> interleaved spec P m mf.

(* A client that uses the library for all communication on its cells: every call is SeqCst, code outside the library does not write the
   cells (it may read them), the cells of different calls are the same or do not overlap, there are finitely many threads. *)
Record sc_client (G : graph) : Prop := {
  cl_sc : forall t q c r its, call_at G t q c r its -> total_order (eff c r) = true;
  cl_code : forall t q its v b t' q' c r its', nth_error (g_thr G t) q = Some (Code its) -> In (IE v) its -> e_w v = true -> covers v b ->
    call_at G t' q' c r its' -> ~ (fst (op_cell c) <= b < fst (op_cell c) + snd (op_cell c));
  cl_cells : forall t q c r its t' q' c' r' its', call_at G t q c r its -> call_at G t' q' c' r' its' -> op_cell c = op_cell c' \/ disjoint (op_cell c) (op_cell c');
  cl_fin : exists N, forall t, (N <= t)%nat -> g_thr G t = []
}.
