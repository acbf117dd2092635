(* Memory orderings and the API's ordering checks. *)
From Coq Require Import Bool List.
Import ListNotations.

(* core::sync::atomic::Ordering *)
Inductive ordering := Relaxed | Release | Acquire | AcqRel | SeqCst.

(* result of a Rust function that may panic *)
Inductive res (A : Type) := Ret (a : A) | Panic.
Arguments Ret {A}. Arguments Panic {A}.

(* src/utils.rs:85-92 assert_load_ordering *)
Definition assert_load_ordering (o : ordering) : res unit :=
  match o with
  | Acquire | Relaxed | SeqCst => Ret tt
  | Release => Panic
  | AcqRel => Panic
  end.

(* src/utils.rs:97-104 assert_store_ordering *)
Definition assert_store_ordering (o : ordering) : res unit :=
  match o with
  | Release | Relaxed | SeqCst => Ret tt
  | Acquire => Panic
  | AcqRel => Panic
  end.

(* src/utils.rs:109-124 assert_compare_exchange_ordering *)
Definition assert_compare_exchange_ordering (success failure : ordering) : res unit :=
  match success with
  | AcqRel | Acquire | Relaxed | Release | SeqCst =>
    match failure with
    | Acquire | Relaxed | SeqCst => Ret tt
    | Release => Panic
    | AcqRel => Panic
    end
  end.

(* src/utils.rs:130-137 upgrade_success_ordering *)
Definition upgrade_success_ordering (success failure : ordering) : ordering :=
  match success, failure with
  | Relaxed, Acquire => Acquire
  | Release, Acquire => AcqRel
  | _, SeqCst => SeqCst
  | _, _ => success
  end.

(* What an implementation offers for a given type and ordering. *)
Inductive impl (A : Type) :=
| NoImpl                (* no `impl AtomicXxx for $ty` in this configuration *)
| Unreachable           (* the match falls into `_ => unreachable!()`        *)
| Impl (a : A).
Arguments NoImpl {A}. Arguments Unreachable {A}. Arguments Impl {A}.

(* apply a `match order { ... _ => unreachable!() }` table *)
Definition with_table {T A} (t : option T) (k : T -> A) : impl A :=
  match t with Some x => Impl (k x) | None => Unreachable end.
