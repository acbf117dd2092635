(* C07: any number of threads calling the API on one shared memory. *)
From Verif Require Export Api.

(* ---- the concurrent system (multi-core targets) ---- *)
(* a call in progress: its number (unique), the operation, its block and the state of the thread's registers *)
Record inflight := mkfly { k_id : nat; k_op : op; k_fn : fn rval; k_st : tst }.
(* what happens, in global order; a number names one call *)
Inductive event :=
| EInv (t k : nat) (c : op)          (* thread t calls [c]; this call gets the number k      *)
| EStep (k : nat) (st : mem * mem)   (* one instruction of call k                            *)
| ERet (k : nat) (r : rval)          (* call k returns                                       *)
| EPlain (m m' : mem).               (* any other write by anybody: plain stores, other code *)
Record sys := mksys { s_mem : mem; s_thr : nat -> option inflight; s_next : nat }.
Definition setthr (f : nat -> option inflight) (t : nat) (v : option inflight) : nat -> option inflight := fun x => if Nat.eqb x t then v else f x.

(* one step of the system; threads choose their next call freely; registers, stale reservations, store-conditional outcomes and
   unspecified values are arbitrary; a call is recorded as what it is ([as_done]: compare_exchange, with the exceptions of C04, as itself) *)
Inductive step (T : arch) : sys -> event -> sys -> Prop :=
| s_inv S t c f s0 : s_thr S t = None -> op_args T c -> op_pre T c = Ret tt -> op_impl T c = Impl f ->
    pc s0 = O -> f_in f (rf s0) ->
    step T S (EInv t (s_next S) (as_done T c)) (mksys (s_mem S) (setthr (s_thr S) t (Some (mkfly (s_next S) (as_done T c) f s0))) (Datatypes.S (s_next S)))
| s_step S t k c f s i ok j s' m' : s_thr S t = Some (mkfly k c f s) -> nth_error (f_prog f) (pc s) = Some i ->
    exec (t_e T) (f_prog f) i (mkor (s_mem S) ok j) s = Some (s', m') ->
    step T S (EStep k (s_mem S, m')) (mksys m' (setthr (s_thr S) t (Some (mkfly k c f s'))) (s_next S))
| s_ret S t k c f s r : s_thr S t = Some (mkfly k c f s) -> at_exit (f_prog f) s -> f_out f (rf s) = Some r ->
    step T S (ERet k r) (mksys (s_mem S) (setthr (s_thr S) t None) (s_next S))
| s_plain S m' : wf_mem m' -> step T S (EPlain (s_mem S) m') (mksys m' (s_thr S) (s_next S)).
Inductive steps (T : arch) : sys -> list event -> sys -> Prop :=
| steps_nil S : steps T S [] S
| steps_cons S e S1 l S2 : step T S e S1 -> steps T S1 l S2 -> steps T S (e :: l) S2.
Definition init (m : mem) : sys := mksys m (fun _ => None) 0.

(* ---- linearizability ---- *)
(* an atomic history: the same calls, but each takes effect at one instant *)
Inductive aev :=
| AInv (t k : nat) (c : op)
| ALin (k : nat) (c : op) (r : rval)   (* call k = [c] takes effect now, with result [r] *)
| ARet (k : nat) (r : rval)
| APlain (m m' : mem).
(* what the outside sees: calls, returns, other writes *)
Inductive vis := VInv (t k : nat) (c : op) | VRet (k : nat) (r : rval) | VPlain (m m' : mem).
Definition view_e (e : event) : list vis :=
  match e with EInv t k c => [VInv t k c] | EStep _ _ => [] | ERet k r => [VRet k r] | EPlain m m' => [VPlain m m'] end.
Definition view_a (e : aev) : list vis :=
  match e with AInv t k c => [VInv t k c] | ALin _ _ _ => [] | ARet k r => [VRet k r] | APlain m m' => [VPlain m m'] end.
Definition about (k : nat) (e : aev) : bool :=
  match e with AInv _ k' _ | ALin k' _ _ | ARet k' _ => Nat.eqb k k' | APlain _ _ => false end.
(* the memory evolves by the effects alone *)
Inductive legal (e : endian) : mem -> list aev -> mem -> Prop :=
| l_nil m m' : meq m m' -> legal e m [] m'
| l_inv m t k c l m' : legal e m l m' -> legal e m (AInv t k c :: l) m'
| l_ret m k r l m' : legal e m l m' -> legal e m (ARet k r :: l) m'
| l_lin m k c r m1 m2 l m' : meq m m1 -> op_spec e c m1 m2 r -> legal e m2 l m' -> legal e m (ALin k c r :: l) m'
| l_plain m m1 m2 l m' : meq m m1 -> legal e m2 l m' -> legal e m (APlain m1 m2 :: l) m'.
Definition linearizable (e : endian) (m0 : mem) (h : list event) (mf : mem) : Prop :=
  exists A : list aev,
    flat_map view_a A = flat_map view_e h /\      (* same calls, returns and other writes in the same order *)
    legal e m0 A mf /\                            (* each effect is the sequential specification of its call *)
    (forall k, (* each call: nothing, called, called and taken effect, called, taken effect once and returned that result *)
       let l := filter (about k) A in
       l = [] \/ exists t c, l = [AInv t k c] \/ exists r, l = [AInv t k c; ALin k c r] \/ l = [AInv t k c; ALin k c r; ARet k r]).
