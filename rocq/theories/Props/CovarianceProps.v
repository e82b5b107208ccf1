(** Properties C122-C123: changes of variables and superposition. *)
From Coq Require Import Reals.
From Verif Require Import Model.Base Model.Scalar Model.LinAlg Model.Enums Model.Options Model.Coeffs Model.Erk.
From Verif Require Import Spec.Sums Spec.Observe Spec.ErkSpec Spec.Methods Spec.Covariance.
From Verif Require Import Proofs.Covariance Proofs.CovarianceExamples.
Local Open Scope R_scope.

(** C122.  An affine change of variables, and of the unit and origin of time, of the problem is the same change of the results:
    for all runs on corresponding times, and for all successful runs with corresponding fixed steps. *)
Theorem C122_erk_affine_change :
  forall (E1 E3 : Env R) (L1 L3 : LinAlg R) (X1 : ExactProducts L1) (X3 : ExactProducts L3) (S1 S3 : Type)
    (F1 : functor R S1) (F3 : functor R S3) f g, computes F1 f -> computes F3 g ->
  forall M v a s m, a <> 0 ->
  forall fu1 a0 a1 y o1 oo1 d1 w1 w1' r1 fu3 c0 c1 z o3 oo3 d3 w3 w3' r3,
  conjugate (length y) (length z) M v a s f g ->
  @erk_odeint R RScalar L1 E1 S1 fu1 F1 a0 a1 y o1 oo1 m d1 w1 = (w1', Ok r1) ->
  @erk_odeint R RScalar L3 E3 S3 fu3 F3 c0 c1 z o3 oo3 m d3 w3 = (w3', Ok r3) ->
  z = affine_map (length y) (length z) M v y -> eo_t_vals r3 = map (fun t => a * t + s) (eo_t_vals r1) ->
  eo_y_vals r3 = map (affine_map (length y) (length z) M v) (eo_y_vals r1).
Proof. exact (fun E1 E3 L1 L3 X1 X3 S1 S3 => @affine_runs E1 E3 L1 L3 X1 X3 S1 S3). Qed.
Print Assumptions C122_erk_affine_change.
Theorem C122_erk_affine_change_fixed_steps :
  forall (E1 E3 : Env R) (L1 L3 : LinAlg R) (X1 : ExactProducts L1) (X3 : ExactProducts L3) (S1 S3 : Type)
    (F1 : functor R S1) (F3 : functor R S3) f g, computes F1 f -> computes F3 g ->
  forall M v a s m, a <> 0 ->
  forall t0 t1 dt fu1 y o1 oo1 w1 w1' r1 fu3 z o3 oo3 w3 w3' r3,
  conjugate (length y) (length z) M v a s f g -> In m explicit_methods -> 0 < a -> t0 < t1 -> 0 < dt ->
  (eo_adaptive o1 = false /\ eo_adaptive o3 = false) \/ ~ In m explicit_embedded ->
  @erk_odeint R RScalar L1 E1 S1 fu1 F1 t0 t1 y o1 oo1 m dt w1 = (w1', Ok r1) -> eo_status r1 = SUCCESS ->
  @erk_odeint R RScalar L3 E3 S3 fu3 F3 (a * t0 + s) (a * t1 + s) z o3 oo3 m (a * dt) w3 = (w3', Ok r3) -> eo_status r3 = SUCCESS ->
  z = affine_map (length y) (length z) M v y ->
  eo_t_vals r3 = map (fun t => a * t + s) (eo_t_vals r1) /\ eo_y_vals r3 = map (affine_map (length y) (length z) M v) (eo_y_vals r1).
Proof. exact (fun E1 E3 L1 L3 X1 X3 S1 S3 => @affine_fixed E1 E3 L1 L3 X1 X3 S1 S3). Qed.
Print Assumptions C122_erk_affine_change_fixed_steps.
(** the first component of x' = x^2 - t, y' = x y in other units, u = 100 x + 3 at time 1000 t + 5 *)
Example C122_example m : In m explicit_methods ->
  conjugate 2 1 ce_M (fun _ => 3) 1000 5 ce_f ce_g /\
  exists f1 f3 w1 w3 r1 r3, ce_run ce_f f1 0 1 (1 / 4) [1; 2] m = (w1, Ok r1) /\ eo_status r1 = SUCCESS /\
    ce_run ce_g f3 (1000 * 0 + 5) (1000 * 1 + 5) (1000 * (1 / 4)) [103] m = (w3, Ok r3) /\ eo_status r3 = SUCCESS /\
    [103] = affine_map 2 1 ce_M (fun _ => 3) [1; 2].
Proof. exact (ce_affine m). Qed.

(** C123.  Superposition: where it holds for the equations it holds for the results of runs on the same times, in particular
    with the same fixed step. *)
Theorem C123_erk_superposition :
  forall (E1 E2 E3 : Env R) (L1 L2 L3 : LinAlg R) (X1 : ExactProducts L1) (X2 : ExactProducts L2) (X3 : ExactProducts L3) (S1 S2 S3 : Type)
    (F1 : functor R S1) (F2 : functor R S2) (F3 : functor R S3) f g h, computes F1 f -> computes F2 g -> computes F3 h ->
  forall n al be m fu1 a0 a1 x o1 oo1 d1 w1 w1' r1 fu2 b0 b1 y o2 oo2 d2 w2 w2' r2 fu3 c0 c1 o3 oo3 d3 w3 w3' r3,
  superposes n al be f g h -> length x = n -> length y = n ->
  @erk_odeint R RScalar L1 E1 S1 fu1 F1 a0 a1 x o1 oo1 m d1 w1 = (w1', Ok r1) ->
  @erk_odeint R RScalar L2 E2 S2 fu2 F2 b0 b1 y o2 oo2 m d2 w2 = (w2', Ok r2) ->
  @erk_odeint R RScalar L3 E3 S3 fu3 F3 c0 c1 (combination n al be x y) o3 oo3 m d3 w3 = (w3', Ok r3) ->
  eo_t_vals r2 = eo_t_vals r1 -> eo_t_vals r3 = eo_t_vals r1 ->
  forall k, (k < length (eo_t_vals r1))%nat -> nth k (eo_y_vals r3) [] = combination n al be (nth k (eo_y_vals r1) []) (nth k (eo_y_vals r2) []).
Proof. exact (fun E1 E2 E3 L1 L2 L3 X1 X2 X3 S1 S2 S3 => @superposition E1 E2 E3 L1 L2 L3 X1 X2 X3 S1 S2 S3). Qed.
Print Assumptions C123_erk_superposition.
Theorem C123_erk_superposition_fixed_steps :
  forall (E1 E2 E3 : Env R) (L1 L2 L3 : LinAlg R) (X1 : ExactProducts L1) (X2 : ExactProducts L2) (X3 : ExactProducts L3) (S1 S2 S3 : Type)
    (F1 : functor R S1) (F2 : functor R S2) (F3 : functor R S3) f g h, computes F1 f -> computes F2 g -> computes F3 h ->
  forall n al be m t0 t1 dt o1 o2 o3, In m explicit_methods -> t0 < t1 -> 0 < dt ->
  (eo_adaptive o1 = false /\ eo_adaptive o2 = false /\ eo_adaptive o3 = false) \/ ~ In m explicit_embedded ->
  forall fu1 x oo1 w1 w1' r1 fu2 y oo2 w2 w2' r2 fu3 oo3 w3 w3' r3,
  superposes n al be f g h -> length x = n -> length y = n ->
  @erk_odeint R RScalar L1 E1 S1 fu1 F1 t0 t1 x o1 oo1 m dt w1 = (w1', Ok r1) -> eo_status r1 = SUCCESS ->
  @erk_odeint R RScalar L2 E2 S2 fu2 F2 t0 t1 y o2 oo2 m dt w2 = (w2', Ok r2) -> eo_status r2 = SUCCESS ->
  @erk_odeint R RScalar L3 E3 S3 fu3 F3 t0 t1 (combination n al be x y) o3 oo3 m dt w3 = (w3', Ok r3) -> eo_status r3 = SUCCESS ->
  eo_t_vals r2 = eo_t_vals r1 /\ eo_t_vals r3 = eo_t_vals r1 /\
  forall k, (k < length (eo_t_vals r1))%nat -> nth k (eo_y_vals r3) [] = combination n al be (nth k (eo_y_vals r1) []) (nth k (eo_y_vals r2) []).
Proof. exact (fun E1 E2 E3 L1 L2 L3 X1 X2 X3 S1 S2 S3 => @super_fixed E1 E2 E3 L1 L2 L3 X1 X2 X3 S1 S2 S3). Qed.
Print Assumptions C123_erk_superposition_fixed_steps.
(** twice a solution of a linear system and three times one of a forced system, for every explicit method *)
Example C123_example m : In m explicit_methods ->
  superposes 2 2 3 ce_lin ce_forced ce_sum /\
  exists f1 f2 f3 w1 w2 w3 r1 r2 r3, ce_run ce_lin f1 0 1 (1 / 4) [1; 0] m = (w1, Ok r1) /\ eo_status r1 = SUCCESS /\
    ce_run ce_forced f2 0 1 (1 / 4) [0; 1] m = (w2, Ok r2) /\ eo_status r2 = SUCCESS /\
    ce_run ce_sum f3 0 1 (1 / 4) (combination 2 2 3 [1; 0] [0; 1]) m = (w3, Ok r3) /\ eo_status r3 = SUCCESS.
Proof. exact (ce_super m). Qed.
