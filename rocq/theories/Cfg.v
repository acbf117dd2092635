(* Conditional compilation: the language of #[cfg(...)] and what it means (Rust reference, "Conditional compilation"). *)
From Coq Require Import List String Bool.
Import ListNotations.
Open Scope string_scope.

Inductive cfg := Is (key value : string) | Flag (name : string) | Any (l : list cfg) | All (l : list cfg) | Not (c : cfg).
(* a compilation: the key-value options and the plain options that are set *)
Record env := mkenv { is_set : string -> string -> bool; flag_set : string -> bool }.
Fixpoint holds (E : env) (c : cfg) : bool :=
  match c with
  | Is k v => is_set E k v
  | Flag f => flag_set E f
  | Any l => existsb (holds E) l
  | All l => forallb (holds E) l
  | Not c => negb (holds E c)
  end.

(* the integer types of lib.rs:776-787 and the traits of raw.rs *)
Inductive ity := I8 | U8 | I16 | U16 | I32 | U32 | I64 | U64 | I128 | U128 | Isize | Usize.
Inductive trait := TLoad | TStore | TSwap | TCas.
Scheme Equality for ity.
Scheme Equality for trait.
Definition all_ity := [I8; U8; I16; U16; I32; U32; I64; U64; I128; U128; Isize; Usize].
Definition all_traits := [TLoad; TStore; TSwap; TCas].
