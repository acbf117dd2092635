(* shared by the proofs about src/arch_legacy *)
From Verif Require Export Sym Legacy Fields.
Ltac unfl := unfold pld, pldp, pst, pstp.
(* the address operand of a private access is the buffer's *)
Ltac priv H := rewrite ?H, ?Z.eqb_refl.
Lemma ret_cas_l_ok x v b : x = v -> ret_cas_l x (b2z b) = Some (v, b).
Proof. intros <-. destruct b; reflexivity. Qed.
Lemma wr_sext e m a n w v : 0 < n -> 8 * n <= w -> meq (wr e m a n (sext (8 * n) w v)) (wr e m a n v).
Proof.
  intros Hn Hw. eapply meq_trans; [apply meq_sym; apply (wr_low e m a n _ (8 * n)); lia|]. rewrite sext_low by lia. apply wr_low; lia.
Qed.
