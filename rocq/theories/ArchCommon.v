(* ISA operations shared by several architecture files *)
From Verif Require Export Spec Utils.

(* 32-bit shifts by the low 5 bits of the amount with the 32-bit result sign-extended to the [w]-bit register:
   RISC-V sllw/srlw (sll/srl on RV32), LoongArch sll.w/srl.w, MIPS sllv/srlv. *)
Definition sx_sll (w : Z) (a b : Z) : Z := sext 32 w (Z.shiftl a (b mod 32)).
Definition sx_srl (w : Z) (a b : Z) : Z := sext 32 w (Z.shiftr (low 32 a) (b mod 32)).
Definition sllw (w : Z) (r a b : reg) := Op r (op2 (sx_sll w)) [a; b].
Definition srlw (w : Z) (r a b : reg) := Op r (op2 (sx_srl w)) [a; b].

(* Arm (A32 and A64) *)
(* ISA: cmp / teq-like comparison of [k] bits setting Z *)
Definition cmpz (k : Z) (a b : reg) := Op FZ (op2 (fun x y => b2z (low k x =? low k y))) [a; b].
Definition bne_z (l : lbl) := Br (br1 (fun z => z =? 0)) [FZ] l.
Definition beq_z (l : lbl) := Br (br1 (fun z => negb (z =? 0))) [FZ] l.
(* the two registers of a pair access of 2 * k bits: the first one is the half at the lower address *)
Definition half1 (e : endian) (k v : Z) : Z := match e with LE => low k v | BE => Z.shiftr v k end.
Definition half2 (e : endian) (k v : Z) : Z := match e with LE => Z.shiftr v k | BE => low k v end.
Definition halves (e : endian) (k x y : Z) : Z := match e with LE => low k x + y * 2 ^ k | BE => low k y + x * 2 ^ k end.
