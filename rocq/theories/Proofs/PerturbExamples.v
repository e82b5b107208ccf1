(** Problems with kinks beside C126 and C127. *)
From Coq Require Import Reals Lra Psatz.
From Verif Require Import Model.Base Model.Scalar Model.LinAlg Model.Enums Model.Options Model.Coeffs Model.Erk.
From Verif Require Import Spec.Sums Spec.Observe Spec.ErkSpec Spec.Methods Spec.ConvergenceSpec.
From Verif Require Import Proofs.SumsProofs Proofs.ExactInstance Proofs.ErkGeneric Proofs.ErkExamples Proofs.CovarianceExamples.
Local Open Scope R_scope.

(** y' = t - |y| and the same with a disturbance of at most 1/100 *)
Definition pk_f (t : R) (y : list R) : list R := [t - Rabs (ventry y 0)].
Definition pk_g (t : R) (y : list R) : list R := [t - Rabs (ventry y 0) + sin (ventry y 0) / 100].
Lemma pk_lipschitz t0 t1 : lipschitz_in 1 1 t0 t1 pk_f.
Proof.
  intros t y z e _ _ _ H q Hq. replace q with O by lia. unfold pk_f, ventry at 1 3. simpl. specialize (H O ltac:(lia)).
  eapply Rle_trans; [|rewrite Rmult_1_l; exact H]. replace (t - Rabs (ventry y 0) - (t - Rabs (ventry z 0))) with (- (Rabs (ventry y 0) - Rabs (ventry z 0))) by ring. rewrite Rabs_Ropp. apply Rabs_triang_inv2.
Qed.
Lemma pk_close t (y : list R) q : (q < 1)%nat -> Rabs (ventry (pk_f t y) q - ventry (pk_g t y) q) <= 1 / 100.
Proof.
  intros Hq. replace q with O by lia. unfold pk_f, pk_g, ventry at 1 3. simpl. set (x := ventry y 0). replace (_ - _) with (- (sin x / 100)) by ring. rewrite Rabs_Ropp. apply Rabs_le. pose proof (SIN_bound x). lra.
Qed.
Lemma pk_runs m : In m explicit_methods -> exists f1 f2 w1 w2 r1 r2,
  ce_run pk_f f1 0 2 (1 / 10) [1] m = (w1, Ok r1) /\ eo_status r1 = SUCCESS /\ ce_run pk_g f2 0 2 (1 / 10) [11 / 10] m = (w2, Ok r2) /\ eo_status r2 = SUCCESS.
Proof.
  intros Hm. destruct (ce_halts pk_f 0 2 (1 / 10) [1] m Hm) as (f1 & w1 & r1 & A1 & A2); [intros t y _; reflexivity|lra|lra|].
  destruct (ce_halts pk_g 0 2 (1 / 10) [11 / 10] m Hm) as (f2 & w2 & r2 & B1 & B2); [intros t y _; reflexivity|lra|lra|]. exists f1, f2, w1, w2, r1, r2. auto.
Qed.

(** y' = |t - 1/2|, whose solution (t - 1/2)|t - 1/2|/2 has no second derivative at 1/2 *)
Definition kink_f (t : R) (y : list R) : list R := [Rabs (t - 1 / 2)].
Definition kink_phi (t : R) : list R := [(t - 1 / 2) * Rabs (t - 1 / 2) / 2].
Lemma kink_remainder x h : Rabs ((x + h) * Rabs (x + h) / 2 - x * Rabs x / 2 - h * Rabs x) <= h * h.
Proof.
  apply Rabs_le. unfold Rabs. destruct (Rcase_abs (x + h)), (Rcase_abs x); split; nra.
Qed.
Lemma kink_derivable x : derivable_pt_lim (fun u => (u - 1 / 2) * Rabs (u - 1 / 2) / 2) x (Rabs (x - 1 / 2)).
Proof.
  intros eps He. exists (mkposreal eps He). intros h Hne Hh. simpl in Hh.
  pose proof (kink_remainder (x - 1 / 2) h) as B. replace (x - 1 / 2 + h) with (x + h - 1 / 2) in B by ring.
  set (D := (x + h - 1 / 2) * Rabs (x + h - 1 / 2) / 2 - (x - 1 / 2) * Rabs (x - 1 / 2) / 2) in * .
  replace (D / h - Rabs (x - 1 / 2)) with ((D - h * Rabs (x - 1 / 2)) / h) by (field; exact Hne). unfold Rdiv. rewrite Rabs_mult.
  assert (Hp : 0 < Rabs h) by (apply Rabs_pos_lt; exact Hne). rewrite Rabs_inv. apply (Rmult_lt_reg_r (Rabs h)); [exact Hp|].
  rewrite Rmult_assoc, Rinv_l, Rmult_1_r by lra. eapply Rle_lt_trans; [exact B|]. replace (h * h) with (Rabs h * Rabs h) by (rewrite <- Rabs_mult; apply Rabs_pos_eq; nra). nra.
Qed.
Lemma kink_solves : solves 1 kink_f 0 1 kink_phi.
Proof. split; [reflexivity|]. intros t i _ Hi. replace i with O by lia. exact (kink_derivable t). Qed.
Lemma kink_lipschitz : lipschitz_in 1 0 0 1 kink_f.
Proof. intros t y z e _ _ _ _ q _. unfold kink_f. replace (_ - _) with 0 by ring. rewrite Rabs_R0. lra. Qed.
Lemma kink_steady : slopes_steady 1 1 1 0 1 kink_f kink_phi.
Proof.
  intros s t q Hs Ht Hq. replace q with O by lia. unfold kink_f, ventry. simpl. split.
  - rewrite Rabs_Rabsolu. apply Rabs_le. lra.
  - eapply Rle_trans; [apply Rabs_triang_inv2|]. rewrite Rmult_1_l. right. f_equal. lra.
Qed.
