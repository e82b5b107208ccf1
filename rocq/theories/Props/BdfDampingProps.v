(** Property theorems: bdf runs on components that decay on their own (C138). *)
From Coq Require Import Reals Lra.
From Verif Require Import Model.Base Model.Scalar Model.LinAlg Model.Enums Model.Options Model.Irk Model.Multistep.
From Verif Require Import Spec.Sums Spec.Observe Spec.NewtonSpec Spec.MultistepSpec Spec.BdfLinearSpec Spec.AbStabilitySpec.
From Verif Require Import Proofs.BdfLinearExamples Proofs.BdfDamping Proofs.BdfDampingExamples.
Local Open Scope R_scope.

(** C138.  Let y' = A(t) y + g(t), solved with the exact Jacobian, have a component with y_q' = - lam y_q, and let mu = lam h for the
    step size h that is used.  For every order from 1 to 6 and every mu of at least 1/10, however large, the recorded values of the
    component decay geometrically from the initial one, at a rate that depends on the order and on mu alone, and the run reports
    SUCCESS.  (No limit on the step size, where the explicit solver has the limits of C137.) *)
Theorem C138_bdf_damps_without_limit :
  forall k mu, (1 <= k <= 6)%nat -> 1 / 10 <= mu -> exists r, 0 <= r < 1 /\
  forall (LA : LinAlg R) (HP : ExactProducts LA) (HX : ExactSolve LA) (HN : ExactNorm LA) (HE : Env R) (St : Type) (F : functor R St) A g t0 t1 dt lam q fuel y0 w w' sol,
  affine_problem F (length y0) A g -> decaying_component (length y0) q lam (affine_rhs (length y0) A g) ->
  bdf_solvable (length y0) (Rmin dt (t1 - t0) * bdf_beta k) A -> t0 < t1 -> lam * Rmin dt (t1 - t0) = mu ->
  bdf fuel F t0 t1 y0 (Z.of_nat k) dt w = (w', Ok sol) ->
  bo_status sol = SUCCESS /\
  forall i, (i < length (bo_t_vals sol))%nat -> Rabs (ventry (nth i (bo_y_vals sol) []) q) <= 11 ^ 4 * r ^ (i / 11) * Rabs (ventry y0 q).
Proof. exact bdf_damps. Qed.
Print Assumptions C138_bdf_damps_without_limit.
(** y' = - y / (10 h) from 1e-7 to t = 1 with the step size h, for every order and every small h *)
Example C138_example : exists h0, 0 < h0 /\ forall h, 0 < h <= h0 ->
  affine_problem (dd_F h) 1 (dd_A h) (fun _ _ => 0) /\ decaying_component 1 0 (/ (10 * h)) (affine_rhs 1 (dd_A h) (fun _ _ => 0)) /\
  (forall c, 0 <= c -> bdf_solvable 1 c (dd_A h)) /\ / (10 * h) * Rmin h (1 - 0) = 1 / 10 /\
  forall k, (1 <= k <= 6)%nat -> exists fuel w sol, la_bdf 1 (dd_A h) (fun _ _ => 0) fuel 0 1 h dd_y (Z.of_nat k) = (w, Ok sol).
Proof. exact dd_runs. Qed.
