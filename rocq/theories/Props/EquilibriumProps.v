(** Property C124: Runge-Kutta runs stay at an equilibrium. *)
From Coq Require Import Reals Lra.
From Verif Require Import Model.Base Model.Scalar Model.LinAlg Model.Newton Model.Enums Model.Options Model.Coeffs Model.Erk Model.IrkCoeffs Model.Irk.
From Verif Require Import Spec.Sums Spec.Trees Spec.RkSpec Spec.Observe Spec.ErkSpec Spec.NewtonSpec Spec.Methods Spec.IrkSpec Spec.StabilitySpec.
From Verif Require Import Proofs.ChoiceInstance Proofs.ChoiceLU Proofs.ExactInstance Proofs.ErkExamples Proofs.CovarianceExamples Proofs.IrkTotalExamples Proofs.CoerciveExamples Proofs.Equilibrium.
Local Open Scope R_scope.

(** C124.  If the right-hand side vanishes at the initial state at all times, every recorded state of a run is the initial state: for
    the explicit methods ... *)
Theorem C124_erk_equilibrium :
  forall (LA : LinAlg R) (HP : ExactProducts LA) (HE : Env R) (St : Type) (F : functor R St) f, computes F f ->
  forall fuel t0 t1 y0 opts oo m dt w w' sol, erk_odeint fuel F t0 t1 y0 opts oo m dt w = (w', Ok sol) ->
  (forall t, f t y0 = vtab (length y0) (fun _ => 0)) ->
  forall k, (k < length (eo_y_vals sol))%nat -> nth k (eo_y_vals sol) [] = y0.
Proof. exact (fun LA HP HE St => @erk_equilibrium LA HP HE St). Qed.
Print Assumptions C124_erk_equilibrium.
(** x' = x (1 - y), y' = y (x - 1) at (1, 1): *)
Example C124_erk_example : forall m, In m explicit_methods -> exists fuel w' sol,
  ce_run (fun t y => [ventry y 0 * (1 - ventry y 1); ventry y 1 * (ventry y 0 - 1)]) fuel 0 10 (1 / 3) [1; 1] m = (w', Ok sol) /\
  forall k, (k < length (eo_y_vals sol))%nat -> nth k (eo_y_vals sol) [] = [1; 1].
Proof.
  intros m Hm. destruct (ce_halts (fun t y => [ventry y 0 * (1 - ventry y 1); ventry y 1 * (ventry y 0 - 1)]) 0 10 (1 / 3) [1; 1] m Hm) as (fuel & w' & sol & E & _); [intros t y _; reflexivity|lra|lra|].
  exists fuel, w', sol. split; [exact E|]. unfold ce_run in E.
  refine (C124_erk_equilibrium exact_LA _ (exr_E false) unit _ (fun t y => [ventry y 0 * (1 - ventry y 1); ventry y 1 * (ventry y 0 - 1)]) _ _ _ _ _ _ _ _ _ _ _ _ E _).
  - intros t y s v Hv. injection Hv as <-. reflexivity.
  - intros t. unfold ventry, vtab. cbn. f_equal; [ring|]. f_equal. ring.
Qed.

(** ... and for the implicit methods, if the matrices of Newton's iteration at the initial state are invertible. *)
Theorem C124_irk_equilibrium :
  forall (LA : LinAlg R) (HP : ExactProducts LA) (HX : ExactSolve LA) (HLU : ExactLU LA) (HI : ExactInverse LA) (HE : Env R) (St : Type)
    (F : functor R St) f, computes F f -> jac_matrices F ->
  forall fuel t0 t1 y0 opts oo m dt w w' sol, (ndebug = false \/ (t0 < t1 /\ 0 < dt)) ->
  irk_odeint fuel F t0 t1 y0 opts oo m dt w = (w', Ok sol) ->
  (forall t, f t y0 = vtab (length y0) (fun _ => 0)) ->
  (forall sc, irk_get_coefficients m = Ok sc -> forall t J h M, jac_answers F t y0 J -> 0 < h <= t1 - t0 ->
     is_stage_matrix (length y0) (length (sc_b sc)) (mfun (sc_A sc)) h J M -> mat_wf M -> invertible M) ->
  forall k, (k < length (io_y_vals sol))%nat -> nth k (io_y_vals sol) [] = y0.
Proof. exact (fun LA HP HX HLU HI HE St => @irk_equilibrium LA HP HX HLU HI HE St). Qed.
Print Assumptions C124_irk_equilibrium.
(** x' = - 100 x / (1 + x^2) at 0: *)
Example C124_irk_example : forall m C, In (m, C) radau_growth -> exists fuel w' sol,
  @irk_odeint R RScalar choice_LA it_E unit fuel (sn_F 100) 0 2 [0] (it_opts 1000) output_options_default m (1 / 10) (World tt []) = (w', Ok sol) /\
  forall k, (k < length (io_y_vals sol))%nat -> nth k (io_y_vals sol) [] = [0].
Proof.
  intros m C Hm. destruct (sn_run 100 ltac:(lra) m C 2 (1 / 10) 0 Hm ltac:(lra) ltac:(lra)) as (fuel & w' & sol & E). exists fuel, w', sol. split; [exact E|].
  refine (C124_irk_equilibrium choice_LA _ _ _ _ it_E unit (sn_F 100) (sn_f 100) (sn_computes 100) (sn_matrices 100) _ _ _ _ _ _ _ _ _ _ _ (or_introl eq_refl) E _ _).
  - intros t. unfold sn_f, ventry, vtab. cbn. f_equal. unfold Rdiv. ring.
  - intros sc Hsc t J h M HJ Hh HM Hw. refine (proj1 (sn_solvable 100 ltac:(lra) m C sc 2 Hm Hsc) t [0] J h M HJ _ HM Hw). lra.
Qed.
