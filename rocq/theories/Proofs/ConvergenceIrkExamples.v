(** y' = (cos t, -cos t) from (1, 2): runs of the implicit integrator with limited steps. *)
From Coq Require Import Reals Lra.
From Coquelicot Require Import Coquelicot.
From Verif Require Import Model.Base Model.Scalar Model.LinAlg Model.Newton Model.Enums Model.Options Model.Coeffs Model.IrkCoeffs Model.Irk.
From Verif Require Import Spec.Sums Spec.Observe Spec.NewtonSpec Spec.IrkSpec Spec.IrkTotalSpec Spec.Methods Spec.ConvergenceSpec.
From Verif Require Import Proofs.SumsProofs Proofs.TablesGeneric Proofs.ChoiceInstance Proofs.ChoiceLU Proofs.IrkReturns Proofs.IrkTotalExamples Proofs.ConvergenceExamples Proofs.ConvergenceIrk.
Local Open Scope R_scope.

Definition ic_phi (t : R) : list R := [1 + sin t; 2 - sin t].
Lemma ic_solves : solves 2 (it_f cos) 0 2 ic_phi.
Proof.
  split; [reflexivity|]. intros t i Ht Hi. apply is_derive_Reals. destruct i as [|[|i]]; [| |lia]; unfold ventry; cbn [ic_phi it_f nth]; auto_derive; try exact I; ring.
Qed.
Lemma ic_smooth p : smooth_near p 2 1 0 2 (it_f cos) ic_phi.
Proof.
  exists 1, (fun l x q => if (q =? 0)%nat then cos_df l 0 x else - cos_df l 0 x). split; [|split].
  - intros x q Hq. destruct q as [|[|q]]; [reflexivity|reflexivity|lia].
  - intros l x v s q _ Hq _. apply is_derive_Reals.
    assert (E : Rsum 3 (fun j => v j * (if (q =? 0)%nat then cos_df (j :: l) 0 (fun i => x i + s * v i) else - cos_df (j :: l) 0 (fun i => x i + s * v i))) = if (q =? 0)%nat then v 0%nat * cos_df l 1 (fun i => x i + s * v i) else - (v 0%nat * cos_df l 1 (fun i => x i + s * v i))).
    { cbn [Rsum cos_df]. destruct (q =? 0)%nat; ring. }
    rewrite E. destruct (q =? 0)%nat; [apply cos_df_derive|]. apply (is_derive_opp (K := R_AbsRing) (V := R_NormedModule)). apply cos_df_derive.
  - intros l x q _ _ _. destruct (q =? 0)%nat; [|rewrite Rabs_Ropp]; apply cos_df_bound.
Qed.
Lemma ic_lipschitz : lipschitz_in 2 0 0 2 (it_f cos).
Proof. intros t y z e _ _ _ _ q _. unfold it_f. rewrite Rminus_diag_eq, Rabs_R0 by reflexivity. lra. Qed.
Lemma ic_jac : jac_bounded (it_F cos) 2 0 0 2.
Proof. intros t y J _ _ HJ i j Hi Hj. rewrite (it_zero cos _ _ _ _ _ HJ Hi Hj), Rabs_R0. lra. Qed.

(** steps of at most h, Newton tolerance tau, at most 100 steps *)
Definition ic_nopts (tau : R) : options R := Options tau tau 10 false (-1) 10 false false.
Definition ic_opts (h tau : R) : irk_options R := IrkOptions true (1 / 1000) (1 / 1000) h 100 (Some (ic_nopts tau)).
Lemma ic_run m h tau : In m implicit_runnable -> 0 < h -> 0 < tau -> exists fuel w' sol,
  @irk_odeint R RScalar choice_LA it_E unit fuel (it_F cos) 0 2 [1 + sin 0; 2 - sin 0] (ic_opts h tau) output_options_default m h (World tt []) = (w', Ok sol).
Proof.
  intros Hm Hh Ht. destruct (irk_get_ok (T := R) m) as (sc & Hsc & _).
  destruct (irk_returns (LA := choice_LA) (it_F cos) (it_f cos) 0 2 (ic_phi 0) (ic_opts h tau) output_options_default m h (ic_nopts tau) sc 2 1 0) as (fuel & Hr);
    try reflexivity; try assumption; try (cbn; lra); try (cbn; lia).
  - split; [cbn; lia|cbn; discriminate].
  - apply it_dim.
  - apply it_computes.
  - apply it_returns_jac.
  - apply it_matrices.
  - apply it_bounded. intros t. apply Rabs_le, COS_bound.
  - apply it_solvable.
  - exists fuel. exact (Hr fuel (World tt []) (le_n _)).
Qed.
