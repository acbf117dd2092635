(* L3: the accesses of the aarch64 blocks are ordered as the ordering argument asks (all orders, all sizes, all configurations) *)
From Verif Require Import Order Arch_aarch64.
Ltac aat H := cbn [with_table aa_rmw_tbl aa_load_tbl aa_store_tbl aa_load128_tbl aa_store128_tbl upgrade_success_ordering aa_e aa_msvc aa_lse aa_lse2 aa_lse128 aa_rcpc aa_rcpc3 andb] in H.
Lemma aa_ord c : ord_arch (Aarch64 c).
Proof.
  destruct c as [e ms lse lse2 lse128 rc rc3]. constructor.
  - intros n o a f H; unfold t_load, aa_load in H; destruct o; splits H.
    all: destruct rc, lse2, rc3; aat H; try discriminate H; injection H as <-; destruct lse; first [solve [ords false]|ordk [R]].
  - intros n o a v0 f H; unfold t_store, aa_store in H; destruct o; splits H; destruct ms.
    all: destruct lse2, lse128, rc3; aat H; try discriminate H; injection H as <-; first [solve [ords true]|ordk [Tmp]].
  - intros n o a v0 f H; unfold t_swap, aa_swap in H; destruct o; splits H; destruct ms; aat H; injection H as <-; destruct lse, lse128; ordn.
  - intros n s t a x0 y0 f [N1 N2] H; unfold t_cas, aa_cas in H; destruct s, t; try congruence; clear N1 N2; destruct ms; aat H; splits H; injection H as <-; destruct lse; ordn.
  - intros n s t a x0 y0 f [N1 N2] H; unfold t_casw, aa_casw, aa_cas in H; destruct s, t; try congruence; clear N1 N2; destruct ms; aat H; splits H; injection H as <-; try destruct lse; ordn.
Qed.
