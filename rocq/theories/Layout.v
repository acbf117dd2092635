(* Values as Rust's abstract machine sees them, byte by byte, and the layout of the types of src/lib.rs and src/utils.rs. *)
From Verif Require Export Utils.

(* ---- bytes that may be uninitialised ---- *)
Definition abyte := option Z.      (* None: uninitialised *)
Definition aval := list abyte.     (* the bytes of a value in memory order *)
Definition aval_wf (v : aval) : Prop := Forall (fun x => match x with Some b => 0 <= b < 256 | None => True end) v.
(* what an uninitialised byte reads as, once it sits in a register or has been written by machine code: any byte, but fixed from then on *)
Definition frozen (x : abyte) (b : Z) : Prop := 0 <= b < 256 /\ match x with Some c => b = c | None => True end.
(* the unsigned integer with the given bytes (in memory order) *)
Fixpoint le_num (l : list Z) : Z := match l with [] => 0 | b :: r => b + 256 * le_num r end.
Definition num (e : endian) (l : list Z) : Z := match e with LE => le_num l | BE => le_num (rev l) end.
(* a register to which the value [v] is passed may hold [z] *)
Definition may_hold (e : endian) (v : aval) (z : Z) : Prop := exists bs, Forall2 frozen v bs /\ z = num e bs.

(* ---- src/utils.rs ---- *)
(* utils.rs:162-170 #[repr(C)] struct ZeroExtended<T, N> { v, pad: [T; N] } (little endian), { pad, v } (big endian), seen as an integer by
   transmute; [v] has the bytes of T, [pad] is N times T zeros *)
Definition zero_extended (e : endian) (v : aval) (N : nat) : aval :=
  let pad := repeat (Some 0) (N * length v) in match e with LE => v ++ pad | BE => pad ++ v end.
(* utils.rs:171-195 ZeroExtend::zero_extend: 8 and 16 bit to 32 bit, others unchanged *)
Definition zero_extend (e : endian) (v : aval) : aval :=
  match length v with
  | 1%nat | 2%nat => zero_extended e v ((4 - length v) / length v)
  | _ => v end.
(* utils.rs:139-153 zero_extend64_ptr: a 32-bit pointer and one null pointer of padding *)
Definition zero_extend64_ptr (e : endian) (v : aval) : aval := zero_extended e v 1.
(* utils.rs:223-241 #[repr(C)] struct Pair<T> { lo, hi } or { hi, lo }; MaybeUninit64/128 (198-224) are #[repr(C)] unions of it with the integer *)
Definition pair_fields (t : tarch) (e : endian) (v : aval) : aval * aval :=
  let h := Nat.div2 (length v) in
  if pair_lo_first t e then (firstn h v, skipn h v) else (skipn h v, firstn h v).
Definition pair_value (t : tarch) (e : endian) (lo hi : aval) : aval := if pair_lo_first t e then lo ++ hi else hi ++ lo.

(* ---- layout of structs: the Rust reference, "The C representation": fields in order, each at the next multiple of its alignment; the
   alignment is the largest of the fields', the size is rounded up to a multiple of it ---- *)
Record layout := mklay { size : Z; align : Z }.
Definition round_up (x a : Z) : Z := (x + a - 1) / a * a.
Fixpoint repr_c_from (off al : Z) (fs : list layout) : list Z * layout :=
  match fs with
  | [] => ([], mklay (round_up off al) al)
  | f :: r => let o := round_up off (align f) in let '(os, l) := repr_c_from (o + size f) (Z.max al (align f)) r in (o :: os, l)
  end.
Definition repr_c (fs : list layout) : list Z * layout := repr_c_from 0 1 fs.
(* [L; N] *)
Definition array (l : layout) (n : Z) : layout := mklay (size l * n) (align l).
(* #[repr(align(n))] on a struct with one field *)
Definition repr_align (n : Z) (f : layout) : layout := let a := Z.max n (align f) in mklay (round_up (size f) a) a.

(* types: lib.rs:769-780 *)
Inductive ity := I8 | I16 | I32 | I64 | I128 | Isize.
Definition ity_size (pw : Z) (t : ity) : Z := match t with I8 => 1 | I16 => 2 | I32 => 4 | I64 => 8 | I128 => 16 | Isize => pw / 8 end.
(* an ABI: alignment of the integer types (x86: u64 has 4; AVR: all have 1; ...).  Alignments are powers of two and divide the size *)
Definition abi := Z -> Z.
Definition abi_ok (al : abi) : Prop := forall k, In k [0; 1; 2; 3; 4] -> exists j, 0 <= j <= k /\ al (2 ^ k) = 2 ^ j.
Definition int_layout (al : abi) (n : Z) : layout := mklay n (al n).
(* lib.rs:809-826 private::Align1 .. Align16, AlignPtr (by target_pointer_width) *)
Definition align_n (al : abi) (n : Z) : layout := repr_align n (int_layout al n).
Definition align_ptr (al : abi) (pw : Z) : layout :=
  if pw =? 16 then align_n al 2 else if pw =? 32 then align_n al 4 else if pw =? 64 then align_n al 8 else align_n al 16.
(* lib.rs:769-780 int!(ty, Align) *)
Definition prim_align (al : abi) (pw : Z) (t : ity) : layout :=
  match t with I8 => align_n al 1 | I16 => align_n al 2 | I32 => align_n al 4 | I64 => align_n al 8 | I128 => align_n al 16 | Isize => align_ptr al pw end.
(* lib.rs:116-128 #[repr(C)] struct AtomicMaybeUninit { v: UnsafeCell<MaybeUninit<T>>, _align: [T::Align; 0] }; UnsafeCell and MaybeUninit are
   transparent *)
Definition atomic_fields (al : abi) (pw : Z) (t : ity) : list layout := [int_layout al (ity_size pw t); array (prim_align al pw t) 0].
Definition atomic_layout (al : abi) (pw : Z) (t : ity) : layout := snd (repr_c (atomic_fields al pw t)).
Definition atomic_offsets (al : abi) (pw : Z) (t : ity) : list Z := fst (repr_c (atomic_fields al pw t)).

(* bytes of a struct: fields at their offsets, the rest is padding (uninitialised) *)
Fixpoint put (off : nat) (v s : aval) : aval :=
  match off with O => v ++ skipn (length v) s | S k => match s with [] => [] | x :: r => x :: put k v r end end.
Definition struct_bytes (l : layout) (fs : list (Z * aval)) : aval :=
  fold_right (fun '(o, v) s => put (Z.to_nat o) v s) (repeat None (Z.to_nat (size l))) fs.
(* lib.rs:181-183 new, 763-765 const_new, 130-144 From: Self { v: UnsafeCell::new(v), _align: [] } *)
Definition atomic_new (al : abi) (pw : Z) (t : ity) (v : aval) : aval :=
  struct_bytes (atomic_layout al pw t) (combine (atomic_offsets al pw t) [v; []]).
(* utils.rs:51-66 transmute_copy_by_val: a #[repr(C)] union, all of whose fields start at offset 0; the field [dst] has [n] bytes; panics if Src is smaller *)
Definition transmute_copy_by_val (n : nat) (src : aval) : option aval := if (n <=? length src)%nat then Some (firstn n src) else None.
(* lib.rs:266-271 into_inner *)
Definition into_inner (pw : Z) (t : ity) (s : aval) : option aval := transmute_copy_by_val (Z.to_nat (ity_size pw t)) s.

(* memory of the abstract machine *)
Definition amem := Z -> abyte.
Definition place (m : amem) (p : Z) (v : aval) : amem := fun x => if (p <=? x) && (x <? p + Z.of_nat (length v)) then nth (Z.to_nat (x - p)) v None else m x.
Definition fetch (m : amem) (p : Z) (n : nat) : aval := map (fun i => m (p + Z.of_nat i)) (seq 0 n).
(* lib.rs:741-743 as_ptr: self.v.get(), the address of the field [v]; 241-245 get_mut: the same address; 213-216 from_ptr: a cast *)
Definition as_ptr (al : abi) (pw : Z) (t : ity) (self : Z) : Z := self + nth 0 (atomic_offsets al pw t) 0.
Definition get_mut := as_ptr.
Definition from_ptr (p : Z) : Z := p.
