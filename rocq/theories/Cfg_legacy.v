(* Generated from /repo/src/arch_legacy/mod.rs and arch_legacy/*.rs (compilers without MaybeUninit operands): the #[cfg] attributes, transcribed one by one.
   The macros are those of src/arch/cfgs. *)
From Verif Require Import Cfg.
From Coq Require Import List String.
Import ListNotations.
Open Scope string_scope.

(* src/arch_legacy/mod.rs:7-60: the modules *)
Definition legacy_modules : list (string * cfg) := [
  ("unsupported", Not (Any [Is "target_arch" "x86"; Is "target_arch" "x86_64"; All [Is "target_arch" "arm"; Any [Is "target_feature" "v6"; Is "atomic_maybe_uninit_target_feature" "v6"; Is "target_os" "linux"; Is "target_os" "android"]]; Is "target_arch" "aarch64"; Is "target_arch" "riscv32"; Is "target_arch" "riscv64"; All [Is "target_arch" "loongarch64"; Not (Flag "atomic_maybe_uninit_no_asm")]])) (* 25 *);
  ("aarch64", Is "target_arch" "aarch64") (* 28 *);
  ("arm", All [Is "target_arch" "arm"; All [Any [Is "target_feature" "v6"; Is "atomic_maybe_uninit_target_feature" "v6"]; Not (Any [Is "target_feature" "v8"; Is "atomic_maybe_uninit_target_feature" "v8"; Is "target_feature" "v8m"; Is "atomic_maybe_uninit_target_feature" "v8m"])]]) (* 39 *);
  ("arm_linux", All [Is "target_arch" "arm"; All [Any [Is "target_os" "linux"; Is "target_os" "android"]; Not (Any [Is "target_feature" "v6"; Is "atomic_maybe_uninit_target_feature" "v6"])]]) (* 45 *);
  ("armv8", All [Is "target_arch" "arm"; Any [Is "target_feature" "v8"; Is "atomic_maybe_uninit_target_feature" "v8"; Is "target_feature" "v8m"; Is "atomic_maybe_uninit_target_feature" "v8m"]]) (* 53 *);
  ("loongarch", All [Is "target_arch" "loongarch64"; Not (Flag "atomic_maybe_uninit_no_asm")]) (* 56 *);
  ("riscv", Any [Is "target_arch" "riscv32"; Is "target_arch" "riscv64"]) (* 58 *);
  ("x86", Any [Is "target_arch" "x86"; Is "target_arch" "x86_64"]) (* 60 *)].

Definition legacy_impls_unsupported : list (ity * trait * cfg) := [].

(* src/arch_legacy/aarch64.rs: type, trait, condition; line of the macro call, line of the impl *)
Definition legacy_impls_aarch64 : list (ity * trait * cfg) := [
  (I8, TLoad, All []) (* 386, 63 *);
  (I8, TStore, All []) (* 386, 114 *);
  (I8, TSwap, All []) (* 386, 156 *);
  (I8, TCas, All []) (* 386, 225 *);
  (U8, TLoad, All []) (* 387, 63 *);
  (U8, TStore, All []) (* 387, 114 *);
  (U8, TSwap, All []) (* 387, 156 *);
  (U8, TCas, All []) (* 387, 225 *);
  (I16, TLoad, All []) (* 388, 63 *);
  (I16, TStore, All []) (* 388, 114 *);
  (I16, TSwap, All []) (* 388, 156 *);
  (I16, TCas, All []) (* 388, 225 *);
  (U16, TLoad, All []) (* 389, 63 *);
  (U16, TStore, All []) (* 389, 114 *);
  (U16, TSwap, All []) (* 389, 156 *);
  (U16, TCas, All []) (* 389, 225 *);
  (I32, TLoad, All []) (* 390, 63 *);
  (I32, TStore, All []) (* 390, 114 *);
  (I32, TSwap, All []) (* 390, 156 *);
  (I32, TCas, All []) (* 390, 225 *);
  (U32, TLoad, All []) (* 391, 63 *);
  (U32, TStore, All []) (* 391, 114 *);
  (U32, TSwap, All []) (* 391, 156 *);
  (U32, TCas, All []) (* 391, 225 *);
  (I64, TLoad, All []) (* 392, 63 *);
  (I64, TStore, All []) (* 392, 114 *);
  (I64, TSwap, All []) (* 392, 156 *);
  (I64, TCas, All []) (* 392, 225 *);
  (U64, TLoad, All []) (* 393, 63 *);
  (U64, TStore, All []) (* 393, 114 *);
  (U64, TSwap, All []) (* 393, 156 *);
  (U64, TCas, All []) (* 393, 225 *);
  (Isize, TLoad, Is "target_pointer_width" "32") (* 395, 63 *);
  (Isize, TStore, Is "target_pointer_width" "32") (* 395, 114 *);
  (Isize, TSwap, Is "target_pointer_width" "32") (* 395, 156 *);
  (Isize, TCas, Is "target_pointer_width" "32") (* 395, 225 *);
  (Usize, TLoad, Is "target_pointer_width" "32") (* 397, 63 *);
  (Usize, TStore, Is "target_pointer_width" "32") (* 397, 114 *);
  (Usize, TSwap, Is "target_pointer_width" "32") (* 397, 156 *);
  (Usize, TCas, Is "target_pointer_width" "32") (* 397, 225 *);
  (Isize, TLoad, Is "target_pointer_width" "64") (* 399, 63 *);
  (Isize, TStore, Is "target_pointer_width" "64") (* 399, 114 *);
  (Isize, TSwap, Is "target_pointer_width" "64") (* 399, 156 *);
  (Isize, TCas, Is "target_pointer_width" "64") (* 399, 225 *);
  (Usize, TLoad, Is "target_pointer_width" "64") (* 401, 63 *);
  (Usize, TStore, Is "target_pointer_width" "64") (* 401, 114 *);
  (Usize, TSwap, Is "target_pointer_width" "64") (* 401, 156 *);
  (Usize, TCas, Is "target_pointer_width" "64") (* 401, 225 *);
  (I128, TLoad, All []) (* 861, 431 *);
  (I128, TStore, All []) (* 861, 563 *);
  (I128, TSwap, All []) (* 861, 679 *);
  (I128, TCas, All []) (* 861, 747 *);
  (U128, TLoad, All []) (* 862, 431 *);
  (U128, TStore, All []) (* 862, 563 *);
  (U128, TSwap, All []) (* 862, 679 *);
  (U128, TCas, All []) (* 862, 747 *)].

(* src/arch_legacy/arm.rs: type, trait, condition; line of the macro call, line of the impl *)
Definition legacy_impls_arm : list (ity * trait * cfg) := [
  (I8, TLoad, All []) (* 611, 176 *);
  (I8, TStore, All []) (* 611, 213 *);
  (I8, TSwap, Any [Any [Is "target_feature" "v7"; Is "atomic_maybe_uninit_target_feature" "v7"]; Not (Any [Is "target_feature" "mclass"; Is "atomic_maybe_uninit_target_feature" "mclass"])]) (* 611, 254 *);
  (I8, TCas, Any [Any [Is "target_feature" "v7"; Is "atomic_maybe_uninit_target_feature" "v7"]; Not (Any [Is "target_feature" "mclass"; Is "atomic_maybe_uninit_target_feature" "mclass"])]) (* 611, 315 *);
  (U8, TLoad, All []) (* 612, 176 *);
  (U8, TStore, All []) (* 612, 213 *);
  (U8, TSwap, Any [Any [Is "target_feature" "v7"; Is "atomic_maybe_uninit_target_feature" "v7"]; Not (Any [Is "target_feature" "mclass"; Is "atomic_maybe_uninit_target_feature" "mclass"])]) (* 612, 254 *);
  (U8, TCas, Any [Any [Is "target_feature" "v7"; Is "atomic_maybe_uninit_target_feature" "v7"]; Not (Any [Is "target_feature" "mclass"; Is "atomic_maybe_uninit_target_feature" "mclass"])]) (* 612, 315 *);
  (I16, TLoad, All []) (* 613, 176 *);
  (I16, TStore, All []) (* 613, 213 *);
  (I16, TSwap, Any [Any [Is "target_feature" "v7"; Is "atomic_maybe_uninit_target_feature" "v7"]; Not (Any [Is "target_feature" "mclass"; Is "atomic_maybe_uninit_target_feature" "mclass"])]) (* 613, 254 *);
  (I16, TCas, Any [Any [Is "target_feature" "v7"; Is "atomic_maybe_uninit_target_feature" "v7"]; Not (Any [Is "target_feature" "mclass"; Is "atomic_maybe_uninit_target_feature" "mclass"])]) (* 613, 315 *);
  (U16, TLoad, All []) (* 614, 176 *);
  (U16, TStore, All []) (* 614, 213 *);
  (U16, TSwap, Any [Any [Is "target_feature" "v7"; Is "atomic_maybe_uninit_target_feature" "v7"]; Not (Any [Is "target_feature" "mclass"; Is "atomic_maybe_uninit_target_feature" "mclass"])]) (* 614, 254 *);
  (U16, TCas, Any [Any [Is "target_feature" "v7"; Is "atomic_maybe_uninit_target_feature" "v7"]; Not (Any [Is "target_feature" "mclass"; Is "atomic_maybe_uninit_target_feature" "mclass"])]) (* 614, 315 *);
  (I32, TLoad, All []) (* 615, 176 *);
  (I32, TStore, All []) (* 615, 213 *);
  (I32, TSwap, Any [Any [Is "target_feature" "v7"; Is "atomic_maybe_uninit_target_feature" "v7"]; Not (Any [Is "target_feature" "mclass"; Is "atomic_maybe_uninit_target_feature" "mclass"])]) (* 615, 254 *);
  (I32, TCas, Any [Any [Is "target_feature" "v7"; Is "atomic_maybe_uninit_target_feature" "v7"]; Not (Any [Is "target_feature" "mclass"; Is "atomic_maybe_uninit_target_feature" "mclass"])]) (* 615, 315 *);
  (U32, TLoad, All []) (* 616, 176 *);
  (U32, TStore, All []) (* 616, 213 *);
  (U32, TSwap, Any [Any [Is "target_feature" "v7"; Is "atomic_maybe_uninit_target_feature" "v7"]; Not (Any [Is "target_feature" "mclass"; Is "atomic_maybe_uninit_target_feature" "mclass"])]) (* 616, 254 *);
  (U32, TCas, Any [Any [Is "target_feature" "v7"; Is "atomic_maybe_uninit_target_feature" "v7"]; Not (Any [Is "target_feature" "mclass"; Is "atomic_maybe_uninit_target_feature" "mclass"])]) (* 616, 315 *);
  (Isize, TLoad, All []) (* 617, 176 *);
  (Isize, TStore, All []) (* 617, 213 *);
  (Isize, TSwap, Any [Any [Is "target_feature" "v7"; Is "atomic_maybe_uninit_target_feature" "v7"]; Not (Any [Is "target_feature" "mclass"; Is "atomic_maybe_uninit_target_feature" "mclass"])]) (* 617, 254 *);
  (Isize, TCas, Any [Any [Is "target_feature" "v7"; Is "atomic_maybe_uninit_target_feature" "v7"]; Not (Any [Is "target_feature" "mclass"; Is "atomic_maybe_uninit_target_feature" "mclass"])]) (* 617, 315 *);
  (Usize, TLoad, All []) (* 618, 176 *);
  (Usize, TStore, All []) (* 618, 213 *);
  (Usize, TSwap, Any [Any [Is "target_feature" "v7"; Is "atomic_maybe_uninit_target_feature" "v7"]; Not (Any [Is "target_feature" "mclass"; Is "atomic_maybe_uninit_target_feature" "mclass"])]) (* 618, 254 *);
  (Usize, TCas, Any [Any [Is "target_feature" "v7"; Is "atomic_maybe_uninit_target_feature" "v7"]; Not (Any [Is "target_feature" "mclass"; Is "atomic_maybe_uninit_target_feature" "mclass"])]) (* 618, 315 *);
  (I64, TLoad, Not (Any [Is "target_feature" "mclass"; Is "atomic_maybe_uninit_target_feature" "mclass"])) (* 1136, 627 *);
  (I64, TStore, Not (Any [Is "target_feature" "mclass"; Is "atomic_maybe_uninit_target_feature" "mclass"])) (* 1136, 668 *);
  (I64, TSwap, Not (Any [Is "target_feature" "mclass"; Is "atomic_maybe_uninit_target_feature" "mclass"])) (* 1136, 720 *);
  (I64, TCas, Not (Any [Is "target_feature" "mclass"; Is "atomic_maybe_uninit_target_feature" "mclass"])) (* 1136, 780 *);
  (U64, TLoad, Not (Any [Is "target_feature" "mclass"; Is "atomic_maybe_uninit_target_feature" "mclass"])) (* 1137, 627 *);
  (U64, TStore, Not (Any [Is "target_feature" "mclass"; Is "atomic_maybe_uninit_target_feature" "mclass"])) (* 1137, 668 *);
  (U64, TSwap, Not (Any [Is "target_feature" "mclass"; Is "atomic_maybe_uninit_target_feature" "mclass"])) (* 1137, 720 *);
  (U64, TCas, Not (Any [Is "target_feature" "mclass"; Is "atomic_maybe_uninit_target_feature" "mclass"])) (* 1137, 780 *)].

(* src/arch_legacy/arm_linux.rs: type, trait, condition; line of the macro call, line of the impl *)
Definition legacy_impls_arm_linux : list (ity * trait * cfg) := [
  (I8, TLoad, All []) (* 401, 59 *);
  (I8, TStore, All []) (* 401, 107 *);
  (I8, TSwap, All []) (* 401, 271 *);
  (I8, TCas, All []) (* 401, 323 *);
  (U8, TLoad, All []) (* 402, 59 *);
  (U8, TStore, All []) (* 402, 107 *);
  (U8, TSwap, All []) (* 402, 271 *);
  (U8, TCas, All []) (* 402, 323 *);
  (I16, TLoad, All []) (* 403, 59 *);
  (I16, TStore, All []) (* 403, 107 *);
  (I16, TSwap, All []) (* 403, 271 *);
  (I16, TCas, All []) (* 403, 323 *);
  (U16, TLoad, All []) (* 404, 59 *);
  (U16, TStore, All []) (* 404, 107 *);
  (U16, TSwap, All []) (* 404, 271 *);
  (U16, TCas, All []) (* 404, 323 *);
  (I32, TLoad, All []) (* 405, 59 *);
  (I32, TStore, All []) (* 405, 107 *);
  (I32, TSwap, All []) (* 405, 164 *);
  (I32, TCas, All []) (* 405, 204 *);
  (U32, TLoad, All []) (* 406, 59 *);
  (U32, TStore, All []) (* 406, 107 *);
  (U32, TSwap, All []) (* 406, 164 *);
  (U32, TCas, All []) (* 406, 204 *);
  (Isize, TLoad, All []) (* 407, 59 *);
  (Isize, TStore, All []) (* 407, 107 *);
  (Isize, TSwap, All []) (* 407, 164 *);
  (Isize, TCas, All []) (* 407, 204 *);
  (Usize, TLoad, All []) (* 408, 59 *);
  (Usize, TStore, All []) (* 408, 107 *);
  (Usize, TSwap, All []) (* 408, 164 *);
  (Usize, TCas, All []) (* 408, 204 *);
  (I64, TLoad, All []) (* 592, 412 *);
  (I64, TStore, All []) (* 592, 448 *);
  (I64, TSwap, All []) (* 592, 485 *);
  (I64, TCas, All []) (* 592, 524 *);
  (U64, TLoad, All []) (* 593, 412 *);
  (U64, TStore, All []) (* 593, 448 *);
  (U64, TSwap, All []) (* 593, 485 *);
  (U64, TCas, All []) (* 593, 524 *)].

(* src/arch_legacy/armv8.rs: type, trait, condition; line of the macro call, line of the impl *)
Definition legacy_impls_armv8 : list (ity * trait * cfg) := [
  (I8, TLoad, All []) (* 307, 71 *);
  (I8, TStore, All []) (* 307, 107 *);
  (I8, TSwap, All []) (* 307, 142 *);
  (I8, TCas, All []) (* 307, 187 *);
  (U8, TLoad, All []) (* 308, 71 *);
  (U8, TStore, All []) (* 308, 107 *);
  (U8, TSwap, All []) (* 308, 142 *);
  (U8, TCas, All []) (* 308, 187 *);
  (I16, TLoad, All []) (* 309, 71 *);
  (I16, TStore, All []) (* 309, 107 *);
  (I16, TSwap, All []) (* 309, 142 *);
  (I16, TCas, All []) (* 309, 187 *);
  (U16, TLoad, All []) (* 310, 71 *);
  (U16, TStore, All []) (* 310, 107 *);
  (U16, TSwap, All []) (* 310, 142 *);
  (U16, TCas, All []) (* 310, 187 *);
  (I32, TLoad, All []) (* 311, 71 *);
  (I32, TStore, All []) (* 311, 107 *);
  (I32, TSwap, All []) (* 311, 142 *);
  (I32, TCas, All []) (* 311, 187 *);
  (U32, TLoad, All []) (* 312, 71 *);
  (U32, TStore, All []) (* 312, 107 *);
  (U32, TSwap, All []) (* 312, 142 *);
  (U32, TCas, All []) (* 312, 187 *);
  (Isize, TLoad, All []) (* 313, 71 *);
  (Isize, TStore, All []) (* 313, 107 *);
  (Isize, TSwap, All []) (* 313, 142 *);
  (Isize, TCas, All []) (* 313, 187 *);
  (Usize, TLoad, All []) (* 314, 71 *);
  (Usize, TStore, All []) (* 314, 107 *);
  (Usize, TSwap, All []) (* 314, 142 *);
  (Usize, TCas, All []) (* 314, 187 *);
  (I64, TLoad, Not (Any [Is "target_feature" "mclass"; Is "atomic_maybe_uninit_target_feature" "mclass"])) (* 592, 320 *);
  (I64, TStore, Not (Any [Is "target_feature" "mclass"; Is "atomic_maybe_uninit_target_feature" "mclass"])) (* 592, 360 *);
  (I64, TSwap, Not (Any [Is "target_feature" "mclass"; Is "atomic_maybe_uninit_target_feature" "mclass"])) (* 592, 405 *);
  (I64, TCas, Not (Any [Is "target_feature" "mclass"; Is "atomic_maybe_uninit_target_feature" "mclass"])) (* 592, 456 *);
  (U64, TLoad, Not (Any [Is "target_feature" "mclass"; Is "atomic_maybe_uninit_target_feature" "mclass"])) (* 593, 320 *);
  (U64, TStore, Not (Any [Is "target_feature" "mclass"; Is "atomic_maybe_uninit_target_feature" "mclass"])) (* 593, 360 *);
  (U64, TSwap, Not (Any [Is "target_feature" "mclass"; Is "atomic_maybe_uninit_target_feature" "mclass"])) (* 593, 405 *);
  (U64, TCas, Not (Any [Is "target_feature" "mclass"; Is "atomic_maybe_uninit_target_feature" "mclass"])) (* 593, 456 *)].

(* src/arch_legacy/loongarch.rs: type, trait, condition; line of the macro call, line of the impl *)
Definition legacy_impls_loongarch : list (ity * trait * cfg) := [
  (I8, TLoad, All []) (* 379, 24 *);
  (I8, TStore, All []) (* 379, 211 *);
  (I8, TSwap, All []) (* 379, 248 *);
  (I8, TCas, All []) (* 379, 296 *);
  (U8, TLoad, All []) (* 380, 24 *);
  (U8, TStore, All []) (* 380, 211 *);
  (U8, TSwap, All []) (* 380, 248 *);
  (U8, TCas, All []) (* 380, 296 *);
  (I16, TLoad, All []) (* 381, 24 *);
  (I16, TStore, All []) (* 381, 211 *);
  (I16, TSwap, All []) (* 381, 248 *);
  (I16, TCas, All []) (* 381, 296 *);
  (U16, TLoad, All []) (* 382, 24 *);
  (U16, TStore, All []) (* 382, 211 *);
  (U16, TSwap, All []) (* 382, 248 *);
  (U16, TCas, All []) (* 382, 296 *);
  (I32, TLoad, All []) (* 383, 24 *);
  (I32, TStore, All []) (* 383, 67 *);
  (I32, TSwap, All []) (* 383, 109 *);
  (I32, TCas, All []) (* 383, 143 *);
  (U32, TLoad, All []) (* 384, 24 *);
  (U32, TStore, All []) (* 384, 67 *);
  (U32, TSwap, All []) (* 384, 109 *);
  (U32, TCas, All []) (* 384, 143 *);
  (I64, TLoad, Is "target_arch" "loongarch64") (* 386, 24 *);
  (I64, TStore, Is "target_arch" "loongarch64") (* 386, 67 *);
  (I64, TSwap, Is "target_arch" "loongarch64") (* 386, 109 *);
  (I64, TCas, Is "target_arch" "loongarch64") (* 386, 143 *);
  (U64, TLoad, Is "target_arch" "loongarch64") (* 388, 24 *);
  (U64, TStore, Is "target_arch" "loongarch64") (* 388, 67 *);
  (U64, TSwap, Is "target_arch" "loongarch64") (* 388, 109 *);
  (U64, TCas, Is "target_arch" "loongarch64") (* 388, 143 *);
  (Isize, TLoad, Is "target_pointer_width" "32") (* 390, 24 *);
  (Isize, TStore, Is "target_pointer_width" "32") (* 390, 67 *);
  (Isize, TSwap, Is "target_pointer_width" "32") (* 390, 109 *);
  (Isize, TCas, Is "target_pointer_width" "32") (* 390, 143 *);
  (Usize, TLoad, Is "target_pointer_width" "32") (* 392, 24 *);
  (Usize, TStore, Is "target_pointer_width" "32") (* 392, 67 *);
  (Usize, TSwap, Is "target_pointer_width" "32") (* 392, 109 *);
  (Usize, TCas, Is "target_pointer_width" "32") (* 392, 143 *);
  (Isize, TLoad, Is "target_pointer_width" "64") (* 394, 24 *);
  (Isize, TStore, Is "target_pointer_width" "64") (* 394, 67 *);
  (Isize, TSwap, Is "target_pointer_width" "64") (* 394, 109 *);
  (Isize, TCas, Is "target_pointer_width" "64") (* 394, 143 *);
  (Usize, TLoad, Is "target_pointer_width" "64") (* 396, 24 *);
  (Usize, TStore, Is "target_pointer_width" "64") (* 396, 67 *);
  (Usize, TSwap, Is "target_pointer_width" "64") (* 396, 109 *);
  (Usize, TCas, Is "target_pointer_width" "64") (* 396, 143 *)].

(* src/arch_legacy/riscv.rs: type, trait, condition; line of the macro call, line of the impl *)
Definition legacy_impls_riscv : list (ity * trait * cfg) := [
  (I8, TLoad, All []) (* 381, 78 *);
  (I8, TStore, All []) (* 381, 116 *);
  (I8, TSwap, Any [Is "target_feature" "a"; Is "atomic_maybe_uninit_target_feature" "a"]) (* 381, 260 *);
  (I8, TCas, Any [Is "target_feature" "a"; Is "atomic_maybe_uninit_target_feature" "a"]) (* 381, 312 *);
  (U8, TLoad, All []) (* 382, 78 *);
  (U8, TStore, All []) (* 382, 116 *);
  (U8, TSwap, Any [Is "target_feature" "a"; Is "atomic_maybe_uninit_target_feature" "a"]) (* 382, 260 *);
  (U8, TCas, Any [Is "target_feature" "a"; Is "atomic_maybe_uninit_target_feature" "a"]) (* 382, 312 *);
  (I16, TLoad, All []) (* 383, 78 *);
  (I16, TStore, All []) (* 383, 116 *);
  (I16, TSwap, Any [Is "target_feature" "a"; Is "atomic_maybe_uninit_target_feature" "a"]) (* 383, 260 *);
  (I16, TCas, Any [Is "target_feature" "a"; Is "atomic_maybe_uninit_target_feature" "a"]) (* 383, 312 *);
  (U16, TLoad, All []) (* 384, 78 *);
  (U16, TStore, All []) (* 384, 116 *);
  (U16, TSwap, Any [Is "target_feature" "a"; Is "atomic_maybe_uninit_target_feature" "a"]) (* 384, 260 *);
  (U16, TCas, Any [Is "target_feature" "a"; Is "atomic_maybe_uninit_target_feature" "a"]) (* 384, 312 *);
  (I32, TLoad, All []) (* 385, 78 *);
  (I32, TStore, All []) (* 385, 116 *);
  (I32, TSwap, Any [Is "target_feature" "a"; Is "atomic_maybe_uninit_target_feature" "a"]) (* 385, 161 *);
  (I32, TCas, Any [Is "target_feature" "a"; Is "atomic_maybe_uninit_target_feature" "a"]) (* 385, 200 *);
  (U32, TLoad, All []) (* 386, 78 *);
  (U32, TStore, All []) (* 386, 116 *);
  (U32, TSwap, Any [Is "target_feature" "a"; Is "atomic_maybe_uninit_target_feature" "a"]) (* 386, 161 *);
  (U32, TCas, Any [Is "target_feature" "a"; Is "atomic_maybe_uninit_target_feature" "a"]) (* 386, 200 *);
  (I64, TLoad, Is "target_arch" "riscv64") (* 388, 78 *);
  (I64, TStore, Is "target_arch" "riscv64") (* 388, 116 *);
  (I64, TSwap, All [Is "target_arch" "riscv64"; Any [Is "target_feature" "a"; Is "atomic_maybe_uninit_target_feature" "a"]]) (* 388, 161 *);
  (I64, TCas, All [Is "target_arch" "riscv64"; Any [Is "target_feature" "a"; Is "atomic_maybe_uninit_target_feature" "a"]]) (* 388, 200 *);
  (U64, TLoad, Is "target_arch" "riscv64") (* 390, 78 *);
  (U64, TStore, Is "target_arch" "riscv64") (* 390, 116 *);
  (U64, TSwap, All [Is "target_arch" "riscv64"; Any [Is "target_feature" "a"; Is "atomic_maybe_uninit_target_feature" "a"]]) (* 390, 161 *);
  (U64, TCas, All [Is "target_arch" "riscv64"; Any [Is "target_feature" "a"; Is "atomic_maybe_uninit_target_feature" "a"]]) (* 390, 200 *);
  (Isize, TLoad, Is "target_pointer_width" "32") (* 392, 78 *);
  (Isize, TStore, Is "target_pointer_width" "32") (* 392, 116 *);
  (Isize, TSwap, All [Is "target_pointer_width" "32"; Any [Is "target_feature" "a"; Is "atomic_maybe_uninit_target_feature" "a"]]) (* 392, 161 *);
  (Isize, TCas, All [Is "target_pointer_width" "32"; Any [Is "target_feature" "a"; Is "atomic_maybe_uninit_target_feature" "a"]]) (* 392, 200 *);
  (Usize, TLoad, Is "target_pointer_width" "32") (* 394, 78 *);
  (Usize, TStore, Is "target_pointer_width" "32") (* 394, 116 *);
  (Usize, TSwap, All [Is "target_pointer_width" "32"; Any [Is "target_feature" "a"; Is "atomic_maybe_uninit_target_feature" "a"]]) (* 394, 161 *);
  (Usize, TCas, All [Is "target_pointer_width" "32"; Any [Is "target_feature" "a"; Is "atomic_maybe_uninit_target_feature" "a"]]) (* 394, 200 *);
  (Isize, TLoad, Is "target_pointer_width" "64") (* 396, 78 *);
  (Isize, TStore, Is "target_pointer_width" "64") (* 396, 116 *);
  (Isize, TSwap, All [Is "target_pointer_width" "64"; Any [Is "target_feature" "a"; Is "atomic_maybe_uninit_target_feature" "a"]]) (* 396, 161 *);
  (Isize, TCas, All [Is "target_pointer_width" "64"; Any [Is "target_feature" "a"; Is "atomic_maybe_uninit_target_feature" "a"]]) (* 396, 200 *);
  (Usize, TLoad, Is "target_pointer_width" "64") (* 398, 78 *);
  (Usize, TStore, Is "target_pointer_width" "64") (* 398, 116 *);
  (Usize, TSwap, All [Is "target_pointer_width" "64"; Any [Is "target_feature" "a"; Is "atomic_maybe_uninit_target_feature" "a"]]) (* 398, 161 *);
  (Usize, TCas, All [Is "target_pointer_width" "64"; Any [Is "target_feature" "a"; Is "atomic_maybe_uninit_target_feature" "a"]]) (* 398, 200 *)].

(* src/arch_legacy/x86.rs: type, trait, condition; line of the macro call, line of the impl *)
Definition legacy_impls_x86 : list (ity * trait * cfg) := [
  (I8, TLoad, All []) (* 221, 67 *);
  (I8, TStore, All []) (* 221, 94 *);
  (I8, TSwap, All []) (* 221, 137 *);
  (I8, TCas, Not (All [Is "target_arch" "x86"; Flag "atomic_maybe_uninit_no_cmpxchg"])) (* 221, 170 *);
  (U8, TLoad, All []) (* 222, 67 *);
  (U8, TStore, All []) (* 222, 94 *);
  (U8, TSwap, All []) (* 222, 137 *);
  (U8, TCas, Not (All [Is "target_arch" "x86"; Flag "atomic_maybe_uninit_no_cmpxchg"])) (* 222, 170 *);
  (I16, TLoad, All []) (* 223, 67 *);
  (I16, TStore, All []) (* 223, 94 *);
  (I16, TSwap, All []) (* 223, 137 *);
  (I16, TCas, Not (All [Is "target_arch" "x86"; Flag "atomic_maybe_uninit_no_cmpxchg"])) (* 223, 170 *);
  (U16, TLoad, All []) (* 224, 67 *);
  (U16, TStore, All []) (* 224, 94 *);
  (U16, TSwap, All []) (* 224, 137 *);
  (U16, TCas, Not (All [Is "target_arch" "x86"; Flag "atomic_maybe_uninit_no_cmpxchg"])) (* 224, 170 *);
  (I32, TLoad, All []) (* 225, 67 *);
  (I32, TStore, All []) (* 225, 94 *);
  (I32, TSwap, All []) (* 225, 137 *);
  (I32, TCas, Not (All [Is "target_arch" "x86"; Flag "atomic_maybe_uninit_no_cmpxchg"])) (* 225, 170 *);
  (U32, TLoad, All []) (* 226, 67 *);
  (U32, TStore, All []) (* 226, 94 *);
  (U32, TSwap, All []) (* 226, 137 *);
  (U32, TCas, Not (All [Is "target_arch" "x86"; Flag "atomic_maybe_uninit_no_cmpxchg"])) (* 226, 170 *);
  (I64, TLoad, Is "target_arch" "x86_64") (* 228, 67 *);
  (I64, TStore, Is "target_arch" "x86_64") (* 228, 94 *);
  (I64, TSwap, Is "target_arch" "x86_64") (* 228, 137 *);
  (I64, TCas, All [Is "target_arch" "x86_64"; Not (All [Is "target_arch" "x86"; Flag "atomic_maybe_uninit_no_cmpxchg"])]) (* 228, 170 *);
  (U64, TLoad, Is "target_arch" "x86_64") (* 230, 67 *);
  (U64, TStore, Is "target_arch" "x86_64") (* 230, 94 *);
  (U64, TSwap, Is "target_arch" "x86_64") (* 230, 137 *);
  (U64, TCas, All [Is "target_arch" "x86_64"; Not (All [Is "target_arch" "x86"; Flag "atomic_maybe_uninit_no_cmpxchg"])]) (* 230, 170 *);
  (Isize, TLoad, Is "target_pointer_width" "32") (* 232, 67 *);
  (Isize, TStore, Is "target_pointer_width" "32") (* 232, 94 *);
  (Isize, TSwap, Is "target_pointer_width" "32") (* 232, 137 *);
  (Isize, TCas, All [Is "target_pointer_width" "32"; Not (All [Is "target_arch" "x86"; Flag "atomic_maybe_uninit_no_cmpxchg"])]) (* 232, 170 *);
  (Usize, TLoad, Is "target_pointer_width" "32") (* 234, 67 *);
  (Usize, TStore, Is "target_pointer_width" "32") (* 234, 94 *);
  (Usize, TSwap, Is "target_pointer_width" "32") (* 234, 137 *);
  (Usize, TCas, All [Is "target_pointer_width" "32"; Not (All [Is "target_arch" "x86"; Flag "atomic_maybe_uninit_no_cmpxchg"])]) (* 234, 170 *);
  (Isize, TLoad, Is "target_pointer_width" "64") (* 236, 67 *);
  (Isize, TStore, Is "target_pointer_width" "64") (* 236, 94 *);
  (Isize, TSwap, Is "target_pointer_width" "64") (* 236, 137 *);
  (Isize, TCas, All [Is "target_pointer_width" "64"; Not (All [Is "target_arch" "x86"; Flag "atomic_maybe_uninit_no_cmpxchg"])]) (* 236, 170 *);
  (Usize, TLoad, Is "target_pointer_width" "64") (* 238, 67 *);
  (Usize, TStore, Is "target_pointer_width" "64") (* 238, 94 *);
  (Usize, TSwap, Is "target_pointer_width" "64") (* 238, 137 *);
  (Usize, TCas, All [Is "target_pointer_width" "64"; Not (All [Is "target_arch" "x86"; Flag "atomic_maybe_uninit_no_cmpxchg"])]) (* 238, 170 *);
  (I64, TLoad, All [Is "target_arch" "x86"; Not (Flag "atomic_maybe_uninit_no_cmpxchg8b")]) (* 522, 246 *);
  (I64, TStore, All [Is "target_arch" "x86"; Not (Flag "atomic_maybe_uninit_no_cmpxchg8b")]) (* 522, 333 *);
  (I64, TSwap, All [Is "target_arch" "x86"; Not (Flag "atomic_maybe_uninit_no_cmpxchg8b")]) (* 522, 419 *);
  (I64, TCas, All [Is "target_arch" "x86"; Not (Flag "atomic_maybe_uninit_no_cmpxchg8b")]) (* 522, 468 *);
  (U64, TLoad, All [Is "target_arch" "x86"; Not (Flag "atomic_maybe_uninit_no_cmpxchg8b")]) (* 525, 246 *);
  (U64, TStore, All [Is "target_arch" "x86"; Not (Flag "atomic_maybe_uninit_no_cmpxchg8b")]) (* 525, 333 *);
  (U64, TSwap, All [Is "target_arch" "x86"; Not (Flag "atomic_maybe_uninit_no_cmpxchg8b")]) (* 525, 419 *);
  (U64, TCas, All [Is "target_arch" "x86"; Not (Flag "atomic_maybe_uninit_no_cmpxchg8b")]) (* 525, 468 *);
  (I128, TLoad, All [Is "target_arch" "x86_64"; Any [Is "target_feature" "cmpxchg16b"; Is "atomic_maybe_uninit_target_feature" "cmpxchg16b"]; Is "target_pointer_width" "32"]) (* 762, 537 *);
  (I128, TStore, All [Is "target_arch" "x86_64"; Any [Is "target_feature" "cmpxchg16b"; Is "atomic_maybe_uninit_target_feature" "cmpxchg16b"]; Is "target_pointer_width" "32"]) (* 762, 584 *);
  (I128, TSwap, All [Is "target_arch" "x86_64"; Any [Is "target_feature" "cmpxchg16b"; Is "atomic_maybe_uninit_target_feature" "cmpxchg16b"]; Is "target_pointer_width" "32"]) (* 762, 636 *);
  (I128, TCas, All [Is "target_arch" "x86_64"; Any [Is "target_feature" "cmpxchg16b"; Is "atomic_maybe_uninit_target_feature" "cmpxchg16b"]; Is "target_pointer_width" "32"]) (* 762, 695 *);
  (I128, TLoad, All [Is "target_arch" "x86_64"; Any [Is "target_feature" "cmpxchg16b"; Is "atomic_maybe_uninit_target_feature" "cmpxchg16b"]; Is "target_pointer_width" "64"]) (* 762, 537 *);
  (I128, TStore, All [Is "target_arch" "x86_64"; Any [Is "target_feature" "cmpxchg16b"; Is "atomic_maybe_uninit_target_feature" "cmpxchg16b"]; Is "target_pointer_width" "64"]) (* 762, 584 *);
  (I128, TSwap, All [Is "target_arch" "x86_64"; Any [Is "target_feature" "cmpxchg16b"; Is "atomic_maybe_uninit_target_feature" "cmpxchg16b"]; Is "target_pointer_width" "64"]) (* 762, 636 *);
  (I128, TCas, All [Is "target_arch" "x86_64"; Any [Is "target_feature" "cmpxchg16b"; Is "atomic_maybe_uninit_target_feature" "cmpxchg16b"]; Is "target_pointer_width" "64"]) (* 762, 695 *);
  (U128, TLoad, All [Is "target_arch" "x86_64"; Any [Is "target_feature" "cmpxchg16b"; Is "atomic_maybe_uninit_target_feature" "cmpxchg16b"]; Is "target_pointer_width" "32"]) (* 765, 537 *);
  (U128, TStore, All [Is "target_arch" "x86_64"; Any [Is "target_feature" "cmpxchg16b"; Is "atomic_maybe_uninit_target_feature" "cmpxchg16b"]; Is "target_pointer_width" "32"]) (* 765, 584 *);
  (U128, TSwap, All [Is "target_arch" "x86_64"; Any [Is "target_feature" "cmpxchg16b"; Is "atomic_maybe_uninit_target_feature" "cmpxchg16b"]; Is "target_pointer_width" "32"]) (* 765, 636 *);
  (U128, TCas, All [Is "target_arch" "x86_64"; Any [Is "target_feature" "cmpxchg16b"; Is "atomic_maybe_uninit_target_feature" "cmpxchg16b"]; Is "target_pointer_width" "32"]) (* 765, 695 *);
  (U128, TLoad, All [Is "target_arch" "x86_64"; Any [Is "target_feature" "cmpxchg16b"; Is "atomic_maybe_uninit_target_feature" "cmpxchg16b"]; Is "target_pointer_width" "64"]) (* 765, 537 *);
  (U128, TStore, All [Is "target_arch" "x86_64"; Any [Is "target_feature" "cmpxchg16b"; Is "atomic_maybe_uninit_target_feature" "cmpxchg16b"]; Is "target_pointer_width" "64"]) (* 765, 584 *);
  (U128, TSwap, All [Is "target_arch" "x86_64"; Any [Is "target_feature" "cmpxchg16b"; Is "atomic_maybe_uninit_target_feature" "cmpxchg16b"]; Is "target_pointer_width" "64"]) (* 765, 636 *);
  (U128, TCas, All [Is "target_arch" "x86_64"; Any [Is "target_feature" "cmpxchg16b"; Is "atomic_maybe_uninit_target_feature" "cmpxchg16b"]; Is "target_pointer_width" "64"]) (* 765, 695 *)].

Definition legacy_impls : list (string * list (ity * trait * cfg)) := [
  ("unsupported", legacy_impls_unsupported);
  ("aarch64", legacy_impls_aarch64);
  ("arm", legacy_impls_arm);
  ("arm_linux", legacy_impls_arm_linux);
  ("armv8", legacy_impls_armv8);
  ("loongarch", legacy_impls_loongarch);
  ("riscv", legacy_impls_riscv);
  ("x86", legacy_impls_x86)].
