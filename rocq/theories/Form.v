(* Register combinations that an instruction set leaves undefined. *)
From Verif Require Import Api Alloc.
Local Open Scope nat_scope.

(* registers a read-modify-write (or pair-load) instruction may write, and those the value it stores depends on *)
Definition rmw_writes (i : instr) (r : reg) : Prop :=
  match i with Rmw _ _ _ _ outs => exists ok j v s, In r (map fst (outs ok j v s)) | _ => False end.
Definition rmw_reads (i : instr) (r : reg) : Prop :=
  match i with Rmw _ _ _ wfun _ => exists ok v s t, (forall x, x <> r -> s x = t x) /\ wfun ok v s <> wfun ok v t | _ => False end.
Definition rmw_address (i : instr) : option reg := match i with Rmw _ _ ra _ _ => Some ra | _ => None end.

(* Arm A32/T32, A64 (Arm ARM, STREX*, STLEX*, STXR, STXP, LDREXD, LDXP, LDP): the status register of a store-exclusive is neither a data nor the
   address register; the destinations of a pair load differ. *)
Definition arm_form (i : instr) : Prop :=
  match i with
  | SC _ _ rst _ _ rv ra => rst <> rv /\ rst <> ra
  | SCp _ _ rst _ _ r1 r2 ra => rst <> r1 /\ rst <> r2 /\ rst <> ra
  | LLp _ _ _ r1 r2 _ | Op2 r1 r2 _ _ => r1 <> r2
  | Rmw _ _ _ _ outs => forall ok j v s, NoDup (map fst (outs ok j v s))
  | _ => True
  end.
(* LoongArch (manual, volume 1, 2.2.7.1): the destination of an AM* instruction is neither its address register (exception) nor its data register
   (undefined result). *)
Definition am_form (i : instr) : Prop := forall r, rmw_writes i r -> rmw_address i <> Some r /\ ~ rmw_reads i r.
(* Power ISA (lq, lqarx): invalid form if the destination is the address register. *)
Definition quad_form (i : instr) : Prop :=
  match i with
  | LLp _ _ _ r1 r2 ra => r1 <> ra /\ r2 <> ra
  | Rmw _ _ ra _ _ => forall r, rmw_writes i r -> r <> ra
  | _ => True
  end.
(* x86, Intel syntax: LLVM reads a label whose digits are all 0 or 1 as a binary number (Rust reference, "labels"). *)
Definition label_form (i : instr) : Prop := match i with Lab n => n <> 0 /\ n <> 1 /\ n <> 10 /\ n <> 11 | _ => True end.
Definition form_ok (T : arch) (i : instr) : Prop :=
  match T with
  | Aarch64 _ | Aarch64L _ _ | Arm _ | ArmL _ _ | Armv8 _ | Armv8L _ _ | ArmLinux _ _ _ | ArmLinuxL _ _ _ => arm_form i
  | Loongarch _ | LoongarchL _ _ => am_form i
  | Powerpc _ => quad_form i
  | X86 _ | X86L _ _ => label_form i
  | _ => True
  end.

(* ---- checked on the block as written ---- *)
Definition early_ (clob late : list reg) (r : reg) : bool := mem_ r clob && negb (mem_ r late).
Definition neqb (r x : reg) : bool := negb (reg_beq r x).
(* two registers the allocation keeps apart: one is an output that is not late, or both are outputs *)
Definition apart (clob late : list reg) (r x : reg) : bool :=
  neqb r x && (early_ clob late r || (mem_ r (clob ++ special) && mem_ x (clob ++ special))).
Definition arm_pre (clob late : list reg) (i : instr) : Prop :=
  match i with
  | SC _ _ rst _ _ rv ra => apart clob late rst rv && apart clob late rst ra = true
  | SCp _ _ rst _ _ r1 r2 ra => apart clob late rst r1 && apart clob late rst r2 && apart clob late rst ra = true
  | LLp _ _ _ r1 r2 _ | Op2 r1 r2 _ _ => apart clob late r1 r2 = true
  | Rmw _ _ _ _ outs => forall ok j v s, Forall (fun r => In r (clob ++ special)) (map fst (outs ok j v s)) /\ NoDup (map fst (outs ok j v s))
  | _ => True
  end.
Definition am_pre (clob late : list reg) (i : instr) : Prop :=
  match i with
  | Rmw _ _ ra wfun outs => exists L W, forallb (fun r => forallb (apart clob late r) (ra :: L)) W = true /\ (forall ok v s t, agree L s t -> wfun ok v s = wfun ok v t) /\ (forall ok j v s, Forall (fun r => In r W) (map fst (outs ok j v s)))
  | _ => True
  end.
Definition quad_pre (clob late : list reg) (i : instr) : Prop :=
  match i with
  | LLp _ _ _ r1 r2 ra => apart clob late r1 ra && apart clob late r2 ra = true
  | Rmw _ _ ra _ outs => exists W, forallb (fun r => apart clob late r ra) W = true /\ (forall ok j v s, Forall (fun r => In r W) (map fst (outs ok j v s)))
  | _ => True
  end.
Definition form_pre (T : arch) (clob late : list reg) (i : instr) : Prop :=
  match T with
  | Aarch64 _ | Aarch64L _ _ | Arm _ | ArmL _ _ | Armv8 _ | Armv8L _ _ | ArmLinux _ _ _ | ArmLinuxL _ _ _ => arm_pre clob late i
  | Loongarch _ | LoongarchL _ _ => am_pre clob late i
  | Powerpc _ => quad_pre clob late i
  | X86 _ | X86L _ _ => label_form i
  | _ => True
  end.
Definition forms {A} (T : arch) (f : fn A) : Prop := Forall (form_pre T (f_clob f) (f_late f)) (f_prog f).

Lemma neqb_iff r x : neqb r x = true -> r <> x.
Proof. unfold neqb. intros H E. subst. assert (reg_beq x x = true) by now apply rbeq_iff. rewrite H0 in H. discriminate H. Qed.
Lemma early_iff clob late r : early_ clob late r = true -> In r clob /\ ~ In r late.
Proof. unfold early_. intros H. apply andb_true_iff in H. destruct H as [H1 H2]. split; [now apply mem_in|]. intros X. apply mem_in in X. rewrite X in H2. discriminate H2. Qed.
Lemma early_apart {A} g (f : fn A) r x : permitted g f -> early_ (f_clob f) (f_late f) r = true -> r <> x -> g r <> g x.
Proof. intros P E N X. apply early_iff in E. destruct E as [E1 E2]. apply N. symmetry. exact (p_early g f P r x E1 E2 (eq_sym X)). Qed.
Lemma safe_inj {A} g (f : fn A) r x : permitted g f -> In r (f_clob f ++ special) -> In x (f_clob f ++ special) -> g r = g x -> r = x.
Proof.
  intros P Hr Hx E. apply in_app_iff in Hr. apply in_app_iff in Hx.
  destruct Hr as [Hr|Hr]; [destruct Hx as [Hx|Hx]; [exact (p_outs g f P r x Hr Hx E)|]|].
  - destruct (p_special g f P x Hx) as [G1 G2]. rewrite G1 in E. exact (G2 r E).
  - destruct (p_special g f P r Hr) as [G1 G2]. rewrite G1 in E. symmetry. exact (G2 x (eq_sym E)).
Qed.
Lemma apart_alloc {A} g (f : fn A) r x : permitted g f -> apart (f_clob f) (f_late f) r x = true -> g r <> g x.
Proof.
  intros P H. unfold apart in H. rewrite andb_true_iff, orb_true_iff in H. destruct H as [N [H|H]]; apply neqb_iff in N; [exact (early_apart g f r x P H N)|].
  rewrite andb_true_iff in H. destruct H as [H1 H2]. apply mem_in in H1. apply mem_in in H2. intros E. apply N. exact (safe_inj g f r x P H1 H2 E).
Qed.
Lemma nodup_map {A} g (f : fn A) l : permitted g f -> Forall (fun r => In r (f_clob f ++ special)) l -> NoDup l -> NoDup (map g l).
Proof.
  intros P F N. induction N as [|r l Hr N IH]; [constructor|]. inversion F as [|? ? F1 F2]; subst. cbn [map]. constructor; [|exact (IH F2)].
  intros X. apply in_map_iff in X. destruct X as (x & E & Hx). rewrite Forall_forall in F2. apply Hr. rewrite <- (safe_inj g f x r P (F2 x Hx) F1 E). exact Hx.
Qed.
Lemma outs_map (g : reg -> reg) (l : list (reg * Z)) : map fst (map (fun rv => (g (fst rv), snd rv)) l) = map g (map fst l).
Proof. rewrite !map_map. apply map_ext. intros [r v]. reflexivity. Qed.
Lemma form_alloc {A} T g (f : fn A) i : permitted g f -> form_pre T (f_clob f) (f_late f) i -> form_ok T (alloc_instr g i).
Proof.
  intros P H.
  assert (AR : arm_pre (f_clob f) (f_late f) i -> arm_form (alloc_instr g i)).
  { clear H. intros H. destruct i; cbn [arm_pre arm_form alloc_instr] in *; try exact Logic.I; try (repeat (rewrite andb_true_iff in H; let H' := fresh in destruct H as [H H']); repeat split; apply (apart_alloc g f); assumption).
    intros ok j v s. rewrite outs_map. destruct (H ok j v (pull g s)) as [F N]. exact (nodup_map g f _ P F N). }
  assert (AM : am_pre (f_clob f) (f_late f) i -> am_form (alloc_instr g i)).
  { clear H. intros H r Hw. destruct i as [| | | | | | | | |z a ra wfun outs| | | |]; cbn [alloc_instr rmw_writes] in Hw; try contradiction. cbn [am_pre] in H. destruct H as (L & W & E & R & O).
    destruct Hw as (ok & j & v & s & Hw). rewrite outs_map in Hw. apply in_map_iff in Hw. destruct Hw as (x & <- & Hx).
    specialize (O ok j v (pull g s)). rewrite Forall_forall in O. specialize (O x Hx). rewrite forallb_forall in E. specialize (E x O). rewrite forallb_forall in E.
    split.
    - cbn [alloc_instr rmw_address]. intros X. injection X as X. refine (apart_alloc g f x ra P (E ra (or_introl eq_refl)) (eq_sym X)).
    - cbn [alloc_instr rmw_reads]. intros (ok' & v' & s1 & s2 & A1 & A2). apply A2. apply R. intros y Hy. unfold pull. apply A1.
      intros X. exact (apart_alloc g f x y P (E y (or_intror Hy)) (eq_sym X)). }
  assert (QD : quad_pre (f_clob f) (f_late f) i -> quad_form (alloc_instr g i)).
  { clear H. intros H. destruct i as [| | | | |? ? ? ? ? ?| | | |z a ra wfun outs| | | |]; cbn [quad_pre quad_form alloc_instr] in *; try exact Logic.I.
    - rewrite andb_true_iff in H. destruct H as [H H']. split; apply (apart_alloc g f); assumption.
    - destruct H as (W & E & O). intros r (ok & j & v & s & Hw). rewrite outs_map in Hw. apply in_map_iff in Hw. destruct Hw as (x & <- & Hx).
      specialize (O ok j v (pull g s)). rewrite Forall_forall in O. specialize (O x Hx). rewrite forallb_forall in E. exact (apart_alloc g f x ra P (E x O)). }
  destruct T; cbn [form_pre form_ok] in *; auto. all: destruct i; cbn in *; exact H || exact Logic.I.
Qed.
Theorem forms_alloc {A} T g (f : fn A) : permitted g f -> forms T f -> Forall (form_ok T) (f_prog (alloc g f)).
Proof.
  intros P H. cbn [alloc f_prog]. apply Forall_forall. intros i Hi. apply in_map_iff in Hi. destruct Hi as (x & <- & Hx).
  unfold forms in H. rewrite Forall_forall in H. exact (form_alloc T g f x P (H x Hx)).
Qed.
