(** A problem with a kink beside C136: y' = (|t - 1/2|, - |t - 1/2|) on [0, 1]. *)
From Coq Require Import Reals Lra.
From Verif Require Import Model.Base Model.Scalar Model.LinAlg Model.Newton Model.Enums Model.Options Model.Coeffs Model.IrkCoeffs Model.Irk.
From Verif Require Import Spec.Sums Spec.Observe Spec.NewtonSpec Spec.IrkSpec Spec.IrkTotalSpec Spec.Methods Spec.ConvergenceSpec.
From Verif Require Import Proofs.SumsProofs Proofs.TablesGeneric Proofs.ChoiceInstance Proofs.ChoiceLU Proofs.IrkReturns Proofs.IrkTotalExamples Proofs.ConvergenceIrkExamples Proofs.PerturbExamples.
Local Open Scope R_scope.

Definition ik_g (t : R) : R := Rmin 1 (Rabs (t - 1 / 2)).
Definition ik_phi (t : R) : list R := [1 + (t - 1 / 2) * Rabs (t - 1 / 2) / 2; 2 - (t - 1 / 2) * Rabs (t - 1 / 2) / 2].
Lemma ik_g_inside t : 0 <= t <= 1 -> ik_g t = Rabs (t - 1 / 2).
Proof. intros Ht. unfold ik_g. apply Rmin_right. apply Rabs_le. lra. Qed.
Lemma ik_g_bound t : Rabs (ik_g t) <= 1.
Proof. unfold ik_g. rewrite Rabs_pos_eq; [apply Rmin_l|]. apply Rmin_glb; [lra|apply Rabs_pos]. Qed.
Lemma ik_g_lip s t : Rabs (Rabs (t - 1 / 2) - Rabs (s - 1 / 2)) <= Rabs (t - s).
Proof. eapply Rle_trans; [apply Rabs_triang_inv2|]. right. f_equal. ring. Qed.
Lemma ik_solves : solves 2 (it_f ik_g) 0 1 ik_phi.
Proof.
  split; [reflexivity|]. intros t i Ht Hi. pose proof (kink_derivable t) as Hd. destruct i as [|[|i]]; [| |lia]; unfold ventry; cbn [ik_phi it_f nth]; rewrite ik_g_inside by exact Ht.
  - replace (Rabs (t - 1 / 2)) with (0 + Rabs (t - 1 / 2)) by ring. apply (derivable_pt_lim_plus (fun _ => 1) _ t 0 _ (derivable_pt_lim_const 1 t) Hd).
  - replace (- Rabs (t - 1 / 2)) with (0 - Rabs (t - 1 / 2)) by ring. apply (derivable_pt_lim_minus (fun _ => 2) _ t 0 _ (derivable_pt_lim_const 2 t) Hd).
Qed.
Lemma ik_lipschitz : lipschitz_in 2 0 0 1 (it_f ik_g).
Proof. intros t y z e _ _ _ _ q _. unfold it_f. rewrite Rminus_diag_eq, Rabs_R0 by reflexivity. lra. Qed.
Lemma ik_steady : slopes_steady 2 1 1 0 1 (it_f ik_g) ik_phi.
Proof.
  intros s t q Hs Ht Hq. pose proof (ik_g_bound t) as B. pose proof (ik_g_lip s t) as Li. rewrite <- !ik_g_inside in Li by assumption.
  destruct q as [|[|q]]; [| |lia]; unfold ventry; cbn [it_f nth]; (split; [try rewrite Rabs_Ropp; exact B|]); [lra|].
  replace (- ik_g t - - ik_g s) with (- (ik_g t - ik_g s)) by ring. rewrite Rabs_Ropp. lra.
Qed.
Lemma ik_jac : jac_bounded (it_F ik_g) 2 0 0 1.
Proof. intros t y J _ _ HJ i j Hi Hj. rewrite (it_zero ik_g _ _ _ _ _ HJ Hi Hj), Rabs_R0. lra. Qed.
Lemma ik_run m h tau : In m implicit_runnable -> 0 < h -> 0 < tau -> exists fuel w' sol,
  @irk_odeint R RScalar choice_LA it_E unit fuel (it_F ik_g) 0 1 (ik_phi 0) (ic_opts h tau) output_options_default m h (World tt []) = (w', Ok sol).
Proof.
  intros Hm Hh Ht. destruct (irk_get_ok (T := R) m) as (sc & Hsc & _).
  destruct (irk_returns (LA := choice_LA) (it_F ik_g) (it_f ik_g) 0 1 (ik_phi 0) (ic_opts h tau) output_options_default m h (ic_nopts tau) sc 1 1 0) as (fuel & Hr);
    try reflexivity; try assumption; try (cbn; lra); try (cbn; lia).
  - split; [cbn; lia|cbn; discriminate].
  - apply it_dim.
  - apply it_computes.
  - apply it_returns_jac.
  - apply it_matrices.
  - apply it_bounded. exact ik_g_bound.
  - apply it_solvable.
  - exists fuel. exact (Hr fuel (World tt []) (le_n _)).
Qed.
