(** The comparison weights (gamma, b2) of the implicit methods. *)
From Coq Require Import QArith Qreals Qabs Reals Lra.
From Verif Require Import Model.Base Model.Scalar Model.LinAlg Model.Enums Model.Coeffs Model.Collocation Model.IrkCoeffs.
From Verif Require Import Spec.Sums Spec.Trees Spec.Methods Proofs.SumsProofs Proofs.TreesProofs Proofs.QuadField Proofs.OrderProofs.
From Verif Require Import Proofs.CoeffsProofs Proofs.IrkCoeffsProofs.
Local Open Scope R_scope.

Definition emb_weights (sc : solver_coeffs R) (s : nat) : (nat -> nat -> R) * (nat -> R) :=
  (ext_a s (mfun (sc_A sc)), ext_b s (vfun (sc_b2 sc)) (sc_gamma sc)).

Definition emb_check (d : Z) (x : solver_coeffs qs) (s p : nat) : bool :=
  (0 <=? d)%Z && dims_ok x s && (length (sc_b2 x) =? s)%nat &&
  forallb (qcheck d (S s) (ext_rows s (rows_of (sc_A x))) (sc_b2 x ++ [sc_gamma x])) (trees_upto p).
Definition emb_fail (d : Z) (x : solver_coeffs qs) (s : nat) (t : tree) : bool :=
  qfail d (S s) (ext_rows s (rows_of (sc_A x))) (sc_b2 x ++ [sc_gamma x]) t.

Lemma emb_exact d x r s p t : sc_match d x r -> emb_check d x s p = true -> vertices t = S p -> emb_fail d x s t = true ->
  exact_order (S s) (ext_a s (mfun (sc_A r))) (ext_b s (vfun (sc_b2 r)) (sc_gamma r)) p.
Proof.
  unfold emb_check. rewrite !andb_true_iff, Z.leb_le. intros Hm [[[H0 H1] H2] H3] Hv Hf.
  eapply ext_exact; eassumption.
Qed.

(** gamma + sum b2 *)
Lemma emb_sum d x r s : sc_match d x r -> length (sc_b2 x) = s ->
  sc_gamma r + Rsum s (fun i => ventry (sc_b2 r) i) = toR d (qs_add (sc_gamma x) (qsum (sc_b2 x))).
Proof.
  intros Hm Hl. rewrite toR_add, (m_gamma _ _ _ Hm). f_equal. rewrite (qsum_R d s) by exact Hl.
  apply Rsum_ext. intros j Hj. rewrite (m_b2 _ _ _ Hm). apply tab_v.
Qed.
Lemma emb_sum_close x r s : sc_match 2 x r -> length (sc_b2 x) = s ->
  (let z := qs_sub (qs_add (sc_gamma x) (qsum (sc_b2 x))) qs1 in
   Qeq_bool (q1 z) 0 && Qle_bool (Qabs (q0 z)) (1 # 10000000000000000)) = true ->
  Rabs (sc_gamma r + Rsum s (fun i => ventry (sc_b2 r) i) - 1) <= / 10000000000000000.
Proof.
  intros Hm Hl. cbv zeta. rewrite andb_true_iff. intros [H1 H2]. rewrite (emb_sum 2 x r s Hm Hl), <- (toR_1 2), <- toR_sub.
  rewrite toR_rational by exact H1. apply Qle_bool_iff, Qle_Rle in H2.
  replace (Q2R (1 # 10000000000000000)) with (/ 10000000000000000) in H2 by (unfold Q2R; cbn [Qnum Qden]; rewrite Rmult_1_l; reflexivity).
  eapply Rle_trans; [|exact H2]. right. symmetry.
  assert (Q0 : Q2R 0 = 0) by (unfold Q2R; simpl; lra).
  apply Qabs_case; intros H.
  - rewrite Rabs_pos_eq; [reflexivity|]. apply Qle_Rle in H. rewrite Q0 in H. lra.
  - rewrite Rabs_left1; [apply Q2R_opp|]. apply Qle_Rle in H. rewrite Q0 in H. lra.
Qed.

Lemma emb_l43 r (H : sc_match 2 q_l43 r) : exact_order (S 3) (ext_a 3 (mfun (sc_A r))) (ext_b 3 (vfun (sc_b2 r)) (sc_gamma r)) 2.
Proof. exact (emb_exact 2 q_l43 r 3 2 (bushy 3) H ltac:(vm_compute; reflexivity) eq_refl ltac:(vm_compute; reflexivity)). Qed.
Lemma emb_r53 r (H : sc_match 6 q_r53 r) : exact_order (S 3) (ext_a 3 (mfun (sc_A r))) (ext_b 3 (vfun (sc_b2 r)) (sc_gamma r)) 3.
Proof. exact (emb_exact 6 q_r53 r 3 3 (bushy 4) H ltac:(vm_compute; reflexivity) eq_refl ltac:(vm_compute; reflexivity)). Qed.
Lemma emb_c43 r (H : sc_match 2 q_c43 r) : exact_order (S 3) (ext_a 3 (mfun (sc_A r))) (ext_b 3 (vfun (sc_b2 r)) (sc_gamma r)) 1.
Proof. exact (emb_exact 2 q_c43 r 3 1 (bushy 2) H ltac:(vm_compute; reflexivity) eq_refl ltac:(vm_compute; reflexivity)). Qed.
Lemma emb_c64 r (H : sc_match 5 q_c64 r) : exact_order (S 4) (ext_a 4 (mfun (sc_A r))) (ext_b 4 (vfun (sc_b2 r)) (sc_gamma r)) 1.
Proof. exact (emb_exact 5 q_c64 r 4 1 (bushy 2) H ltac:(vm_compute; reflexivity) eq_refl ltac:(vm_compute; reflexivity)). Qed.
Lemma emb_g42 r (H : sc_match 3 q_g42 r) : exact_order (S 3) (ext_a 3 (mfun (sc_A r))) (ext_b 3 (vfun (sc_b2 r)) (sc_gamma r)) 1.
Proof. exact (emb_exact 3 q_g42 r 3 1 (bushy 2) H ltac:(vm_compute; reflexivity) eq_refl ltac:(vm_compute; reflexivity)). Qed.
Lemma emb_r32 r (H : sc_match 2 q_r32 r) : exact_order (S 2) (ext_a 2 (mfun (sc_A r))) (ext_b 2 (vfun (sc_b2 r)) (sc_gamma r)) 0.
Proof. exact (emb_exact 2 q_r32 r 2 0 (bushy 1) H ltac:(vm_compute; reflexivity) eq_refl ltac:(vm_compute; reflexivity)). Qed.
Lemma emb_c85 r (H : sc_match 21 q_c85 r) : exact_order (S 5) (ext_a 5 (mfun (sc_A r))) (ext_b 5 (vfun (sc_b2 r)) (sc_gamma r)) 0.
Proof. exact (emb_exact 21 q_c85 r 5 0 (bushy 1) H ltac:(vm_compute; reflexivity) eq_refl ltac:(vm_compute; reflexivity)). Qed.
