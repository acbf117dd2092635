(* Methods and documented code built from the primitive calls: fetch_update (C12) and the padded-struct helper (C14). *)
From Verif Require Export Api.

(* ---- src/lib.rs:709-727 fetch_update ---- *)
(* The closure is an arbitrary FnMut: [clo st x] = (new captured state, result); anything else it does is other code.
   A finite execution: own steps, calls of the closure in order with their results, and where it is. *)
Inductive fu_status := FPanicked | FRunning | FOk (v : Z) | FErr (v : Z) | FUB.
Section FU.
  Context (T : arch) (n : Z) (set_order fetch_order : ordering) (a : Z) {C : Type} (clo : C -> Z -> C * option Z).
  (* the `while let Some(next) = f(prev)` loop *)
  Inductive fu_loop : C -> Z -> trace -> list (Z * option Z) -> fu_status -> Prop :=
  | fl_none st st' prev : clo st prev = (st', None) -> fu_loop st prev [] [(prev, None)] (FErr prev)
  | fl_ok st st' prev next t v : clo st prev = (st', Some next) ->
      call_run T (OCasWeak n set_order fetch_order a prev next) t (Returned (RCas v true)) ->
      fu_loop st prev t [(prev, Some next)] (FOk v)
  | fl_retry st st' prev next t v t' l r : clo st prev = (st', Some next) ->
      call_run T (OCasWeak n set_order fetch_order a prev next) t (Returned (RCas v false)) ->
      fu_loop st' v t' l r -> fu_loop st prev (t ++ t') ((prev, Some next) :: l) r
  | fl_running st st' prev next t : clo st prev = (st', Some next) ->
      call_run T (OCasWeak n set_order fetch_order a prev next) t Running -> fu_loop st prev t [(prev, Some next)] FRunning
  | fl_panic st st' prev next t : clo st prev = (st', Some next) ->
      call_run T (OCasWeak n set_order fetch_order a prev next) t Panicked -> fu_loop st prev t [(prev, Some next)] FPanicked
  | fl_ub st st' prev next t : clo st prev = (st', Some next) ->
      call_run T (OCasWeak n set_order fetch_order a prev next) t UB -> fu_loop st prev t [(prev, Some next)] FUB.
  Inductive fetch_update (st : C) : trace -> list (Z * option Z) -> fu_status -> Prop :=
  | fu_go t prev t' l r : call_run T (OLoad n fetch_order a) t (Returned (RVal prev)) -> fu_loop st prev t' l r -> fetch_update st (t ++ t') l r
  | fu_running t : call_run T (OLoad n fetch_order a) t Running -> fetch_update st t [] FRunning
  | fu_panic t : call_run T (OLoad n fetch_order a) t Panicked -> fetch_update st t [] FPanicked
  | fu_ub t : call_run T (OLoad n fetch_order a) t UB -> fetch_update st t [] FUB.
End FU.

(* ---- src/lib.rs:448-481 (documentation of compare_exchange): `atomic_compare_exchange` for a type with padding ---- *)
(* [dec] = transmute from the raw bytes to the Rust value, [eqv] = PartialEq::eq *)
Inductive h_status (V : Type) := HOk (v : V) | HErr (v : V) | HRunning | HPanicked | HUB.
Arguments HOk {V}. Arguments HErr {V}. Arguments HRunning {V}. Arguments HPanicked {V}. Arguments HUB {V}.
Section Helper.
  Context (T : arch) (n a : Z) {V : Type} (dec : Z -> V) (eqv : V -> V -> bool) (new_raw : Z).
  (* [list (Z * Z * bool)] = the attempts: expected bytes, bytes found, success *)
  Inductive helper : V -> Z -> trace -> list (Z * Z * bool) -> h_status V -> Prop :=
  | h_ok current raw t v : call_run T (OCasWeak n AcqRel Acquire a raw new_raw) t (Returned (RCas v true)) ->
      helper current raw t [(raw, v, true)] (HOk current)
  | h_err current raw t v : call_run T (OCasWeak n AcqRel Acquire a raw new_raw) t (Returned (RCas v false)) ->
      eqv (dec v) current = false -> helper current raw t [(raw, v, false)] (HErr (dec v))
  | h_again current raw t v t' l s : call_run T (OCasWeak n AcqRel Acquire a raw new_raw) t (Returned (RCas v false)) ->
      eqv (dec v) current = true -> helper (dec v) v t' l s -> helper current raw (t ++ t') ((raw, v, false) :: l) s
  | h_running current raw t : call_run T (OCasWeak n AcqRel Acquire a raw new_raw) t Running -> helper current raw t [] HRunning
  | h_panic current raw t : call_run T (OCasWeak n AcqRel Acquire a raw new_raw) t Panicked -> helper current raw t [] HPanicked
  | h_ub current raw t : call_run T (OCasWeak n AcqRel Acquire a raw new_raw) t UB -> helper current raw t [] HUB.
End Helper.

(* the value [v] was the cell's contents at some instant of the trace *)
Definition held (e : endian) (a n v : Z) (t : trace) : Prop := exists st, In st t /\ rd e (fst st) a n = v.
