(* L3: executions of several threads on a weakly ordered machine, as graphs of memory accesses ("candidate executions").  Each thread is a
   sequence of calls of the library and of arbitrary other code; which write a read takes its bytes from (rf) and in which order writes of
   a byte take effect (co) is chosen by the machine, subject to the axioms below.  The axioms are assumptions about hardware (see DESIGN.md);
   nothing in this file comes from /repo. *)
From Verif Require Export Order.
From Coq Require Export Relations.Relation_Operators Relations.Relation_Definitions.

Inductive seg :=
| Call (c : op) (r : rval) (its : list item)   (* a completed call, its result, its accesses *)
| Code (its : list item).                      (* accesses of code outside the library, each single-copy atomic *)
Definition seg_its (s : seg) : list item := match s with Call _ _ its | Code its => its end.
Definition flat (l : list seg) : list item := concat (map seg_its l).

Definition eid := (nat * nat)%type.            (* thread, position in the thread *)
Record graph := mkgraph {
  g_thr : nat -> list seg;
  g_init : mem;
  g_rf : Z -> eid -> eid -> Prop;              (* byte, write, read *)
  g_co : Z -> eid -> eid -> Prop               (* byte, earlier write, later write *)
}.

Section G.
Context (T : arch) (G : graph).
Definition items (t : nat) : list item := flat (g_thr G t).
Definition ev_at (x : eid) (v : ev) : Prop := at_ (items (fst x)) (snd x) v.
Definition covers (v : ev) (b : Z) : Prop := e_a v <= b < e_a v + e_n v.
Definition reads_b (x : eid) (b : Z) : Prop := exists v, ev_at x v /\ e_w v = false /\ covers v b.
Definition writes_b (x : eid) (b : Z) : Prop := exists v, ev_at x v /\ e_w v = true /\ covers v b.
Definition acc_b (x : eid) (b : Z) : Prop := exists v, ev_at x v /\ covers v b.
Definition po (x y : eid) : Prop := fst x = fst y /\ (snd x < snd y)%nat.
Definition apart (x y : eid) : Prop := fst x <> fst y.
Definition rmw_pair (x y : eid) : Prop := fst x = fst y /\ rmw (items (fst x)) (snd x) (snd y).
(* the access happens at one instant: all but load-linked pairs that are neither atomic by themselves nor validated by a store-conditional *)
Definition solid (x : eid) : Prop := exists v, ev_at x v /\ (e_w v = true \/ e_t v = false \/ exists y, rmw_pair x y).

(* the read takes byte [b] from a write that [w] overwrites *)
Definition fr (b : Z) (r w : eid) : Prop := reads_b r b /\ writes_b w b /\ forall w', g_rf G b w' r -> g_co G b w' w.
Definition com (b : Z) (x y : eid) : Prop := g_rf G b x y \/ g_co G b x y \/ fr b x y.
Definition poloc (b : Z) (x y : eid) : Prop := po x y /\ acc_b x b /\ acc_b y b.

(* axioms common to all machines *)
Record sane : Prop := {
  rf_wf : forall b w r, g_rf G b w r -> exists v u, ev_at w v /\ e_w v = true /\ covers v b /\ ev_at r u /\ e_w u = false /\ covers u b /\ e_b v b = e_b u b;
  rf_one : forall b w w' r, g_rf G b w r -> g_rf G b w' r -> w = w';
  rf_some : forall b r u, ev_at r u -> e_w u = false -> covers u b ->
    (exists w, g_rf G b w r) \/ ((forall w, ~ g_rf G b w r) /\ e_b u b = g_init G b);
  co_wf : forall b x y, g_co G b x y -> writes_b x b /\ writes_b y b;
  co_trans : forall b x y z, g_co G b x y -> g_co G b y z -> g_co G b x z;
  co_total : forall b x y, writes_b x b -> writes_b y b -> x <> y -> g_co G b x y \/ g_co G b y x;
  (* coherence: each byte by itself behaves as under interleaving *)
  coherent : forall b x, ~ clos_trans _ (fun x y => poloc b x y \/ com b x y) x x;
  (* no write comes between the two halves of a read-modify-write *)
  atomic_rmw : forall b r w w', rmw_pair r w -> fr b r w' -> ~ g_co G b w' w
}.

(* Order of accesses of one thread to common bytes.  [y] overwrites, in the same thread, the release write [w] / the write [w] of a
   read-modify-write with read [x]: it is not visible before what comes before [w] (Arm: po; [L]; coi and lws; RISC-V: preserved program order
   rule 1; Power: read -> write in po-loc; other machines: the write of a conditional store is not visible before its load-linked is done, and
   coherence orders [y] after it).  An acquire read [y] that takes a byte from the write [x] of an earlier read-modify-write (Arm:
   [range(rmw)]; rfi; [A]; RISC-V: rule 3). *)
Definition coi (x y : eid) : Prop := fst x = fst y /\ exists b, g_co G b x y.
Inductive loc_lo (x y : eid) : Prop :=
| ll_rel w u v : po x w -> ev_at x u -> ev_at w v -> e_w v = true -> a_rl (e_o v) = true -> clos_trans _ coi w y -> loc_lo x y
| ll_rmw w : rmw_pair x w -> clos_trans _ coi w y -> loc_lo x y
| ll_acq b r v : rmw_pair r x -> g_rf G b x y -> ev_at y v -> a_aq (e_o v) = true -> loc_lo x y.
(* order of the accesses of one thread *)
Definition tlo (x y : eid) : Prop := fst x = fst y /\ (lo (arch_mm T) (items (fst x)) (snd x) (snd y) \/ loc_lo x y).
Definition tfence (x y : eid) : Prop := fst x = fst y /\ fenced (arch_mm T) (items (fst x)) (snd x) (snd y).
Definition tffence (x y : eid) : Prop := fst x = fst y /\ ffenced (arch_mm T) (items (fst x)) (snd x) (snd y).

(* machines on which a write reaches all other processors at once *)
Definition ob (x y : eid) : Prop := tlo x y \/ (apart x y /\ solid x /\ solid y /\ exists b, com b x y).
Definition mca_ok : Prop := forall x, ~ clos_trans _ ob x x.

(* the others: Alglave, Maranget, Tautschnig, "Herding Cats" (2014): axioms no thin air, observation, propagation *)
Definition and_then (R S : eid -> eid -> Prop) (x z : eid) : Prop := exists y, R x y /\ S y z.
Definition rfe (x y : eid) : Prop := apart x y /\ exists b, g_rf G b x y.
Definition fre (x y : eid) : Prop := apart x y /\ exists b, fr b x y.
Definition co (x y : eid) : Prop := exists b, g_co G b x y.
Definition hb (x y : eid) : Prop := tlo x y \/ rfe x y.
Definition hbs := clos_refl_trans _ hb.
Definition prop_base : eid -> eid -> Prop := and_then (fun x y => tfence x y \/ and_then rfe tfence x y) hbs.
Definition is_w (x : eid) : Prop := exists v, ev_at x v /\ e_w v = true.
Definition coms := clos_refl_trans _ (fun x y => exists b, com b x y).
Definition prop (x y : eid) : Prop :=
  (prop_base x y /\ is_w x /\ is_w y) \/ and_then coms (and_then (clos_refl_trans _ prop_base) (and_then tffence hbs)) x y.
Record nmca_ok : Prop := {
  hb_acyclic : forall x, ~ clos_trans _ hb x x;
  observation : forall x, ~ and_then fre (and_then prop hbs) x x;
  propagation : forall x, ~ clos_trans _ (fun x y => co x y \/ prop x y) x x;
  (* an access takes effect on all its bytes together *)
  sca_co : forall b b' x y, g_co G b x y -> writes_b x b' -> writes_b y b' -> g_co G b' x y;
  sca_fr : forall b b' x y, solid x -> fr b x y -> reads_b x b' -> writes_b y b' -> fr b' x y
}.

(* an execution: calls run the library's blocks, the machine obeys its axioms *)
Record execution : Prop := {
  ex_calls : forall t q c r its, nth_error (g_thr G t) q = Some (Call c r its) -> call_items T c its r;
  ex_sane : sane;
  ex_mm : if arch_mca T then mca_ok else nmca_ok
}.

(* ---- naming calls and their accesses ---- *)
Definition base (t q : nat) : nat := length (flat (firstn q (g_thr G t))).
Definition call_at (t q : nat) (c : op) (r : rval) (its : list item) : Prop := nth_error (g_thr G t) q = Some (Call c r its).
(* [x] comes before / after the [q]-th piece of thread [t] *)
Definition before (x : eid) (t q : nat) : Prop := fst x = t /\ (snd x < base t q)%nat.
Definition after (x : eid) (t q : nat) : Prop := fst x = t /\ (base t (S q) <= snd x)%nat.
(* [x] is the read / a write of the call *)
Definition the_read (x : eid) (t q : nat) (its : list item) : Prop := fst x = t /\ exists i, snd x = (base t q + i)%nat /\ op_read its i.
Definition the_write (x : eid) (t q : nat) (its : list item) : Prop := fst x = t /\ exists i, snd x = (base t q + i)%nat /\ op_write its i.
Definition a_write (x : eid) (t q : nat) (its : list item) : Prop := fst x = t /\ exists i, snd x = (base t q + i)%nat /\ is_write its i.
End G.
