(** Property theorems: Adams-Bashforth runs on components that decay on their own (C137). *)
From Coq Require Import Reals Lra.
From Verif Require Import Model.Base Model.Scalar Model.LinAlg Model.Enums Model.Options Model.Irk Model.Multistep.
From Verif Require Import Spec.Sums Spec.Observe Spec.MultistepSpec Spec.BdfLinearSpec Spec.AbStabilitySpec.
From Verif Require Import Proofs.ErkExamples Proofs.BdfLinearExamples Proofs.AbCovarianceExamples Proofs.AbStability Proofs.AbStabilityExamples.
Local Open Scope R_scope.

(** C137.  Let y_q' = - lam y_q, and mu = lam h for the step size h that is used.  Up to the limit of the order (2, 1, 6/11, 3/10,
    90/551) no recorded value of the component is larger than the initial one, and strictly below it the component decays
    geometrically, at a rate that depends on the order and on mu alone ... *)
Theorem C137_ab_decays_below_the_limit :
  forall k mu, (1 <= k <= 5)%nat -> 0 <= mu <= ab_limit k -> exists r, 0 <= r <= 1 /\ (0 < mu < ab_limit k -> r < 1) /\
  forall (LA : LinAlg R) (HE : Env R) (St : Type) (F : functor R St) f t0 t1 dt lam q fuel y0 w w' sol,
  computes F f -> decaying_component (length y0) q lam f -> t0 < t1 -> lam * Rmin dt (t1 - t0) = mu ->
  adams_bashforth fuel F t0 t1 y0 (Z.of_nat k) dt w = (w', Ok sol) ->
  forall i, (i < length (bo_t_vals sol))%nat -> Rabs (ventry (nth i (bo_y_vals sol) []) q) <= r ^ (i / 7) * Rabs (ventry y0 q).
Proof. exact ab_decays. Qed.
Print Assumptions C137_ab_decays_below_the_limit.
Example C137_example_decay :
  decaying_component 2 1 3 (affine_rhs 2 as_A (fun _ _ => 0)) /\ computes (la_F 2 as_A (fun _ _ => 0)) (affine_rhs 2 as_A (fun _ _ => 0)) /\
  exists h, 0 < h /\ forall dt k, 0 < dt <= h -> (1 <= k <= 5)%nat -> 0 < 3 * Rmin dt (50 - 0) < ab_limit k /\
    exists fuel w sol, la_ab 2 as_A (fun _ _ => 0) fuel 0 50 dt [1; 7] (Z.of_nat k) = (w, Ok sol).
Proof. exact as_runs. Qed.

(** ... and above it the recorded values blow up geometrically, although the solution decays: among any five in a row there is one
    of at least c r^i |y0_q|, with r > 1 and c > 0 that depend on the order and on mu alone. *)
Theorem C137_ab_grows_above_the_limit :
  forall k mu, (1 <= k <= 5)%nat -> ab_limit k < mu -> exists r c, 1 < r /\ 0 < c /\
  forall (LA : LinAlg R) (HE : Env R) (St : Type) (F : functor R St) f t0 t1 dt lam q fuel y0 w w' sol,
  computes F f -> decaying_component (length y0) q lam f -> t0 < t1 -> lam * Rmin dt (t1 - t0) = mu ->
  adams_bashforth fuel F t0 t1 y0 (Z.of_nat k) dt w = (w', Ok sol) ->
  forall i, (i + 5 <= length (bo_t_vals sol))%nat -> exists j, (i <= j < i + 5)%nat /\ c * r ^ i * Rabs (ventry y0 q) <= Rabs (ventry (nth j (bo_y_vals sol) []) q).
Proof. exact ab_grows. Qed.
Print Assumptions C137_ab_grows_above_the_limit.
(** y' = -1000 y from 1 with the step size 1/100: at least a hundred values *)
Example C137_example_growth : decaying_component 1 0 1000 as_f /\ computes (exr_fun as_f) as_f /\ ab_limit 1 < 1000 * Rmin (1 / 100) (1 - 0) /\
  exists fuel w sol, al_run as_f fuel 0 1 (1 / 100) [1] = (w, Ok sol) /\ (100 <= length (bo_t_vals sol))%nat.
Proof. exact as_grows. Qed.
