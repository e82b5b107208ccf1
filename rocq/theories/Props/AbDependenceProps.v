(** Properties C128-C129: what changes of variables and units, superposition and small changes of the data do to a run of the
    Adams-Bashforth solver. *)
From Coq Require Import Reals Lra.
From Verif Require Import Model.Base Model.Scalar Model.LinAlg Model.Enums Model.Options Model.Irk Model.Multistep.
From Verif Require Import Spec.Sums Spec.Observe Spec.MultistepSpec Spec.ConvergenceSpec Spec.Covariance.
From Verif Require Import Proofs.CovarianceExamples Proofs.AbCovariance Proofs.AbCovarianceExamples.
Local Open Scope R_scope.

(** C128.  Adams-Bashforth runs commute with affine changes of variables, of units and of the origin of time ... *)
Theorem C128_ab_affine_change :
  forall (E1 E3 : Env R) (L1 L3 : LinAlg R) (S1 S3 : Type) (F1 : functor R S1) (F3 : functor R S3) f g, computes F1 f -> computes F3 g ->
  forall M v a s order t0 t1 dt fu1 y w1 w1' r1 fu3 z w3 w3' r3, 0 < a -> (order <= 5)%Z -> t0 < t1 ->
  conjugate (length y) (length z) M v a s f g -> z = affine_map (length y) (length z) M v y ->
  @adams_bashforth R RScalar L1 E1 S1 fu1 F1 t0 t1 y order dt w1 = (w1', Ok r1) ->
  @adams_bashforth R RScalar L3 E3 S3 fu3 F3 (a * t0 + s) (a * t1 + s) z order (a * dt) w3 = (w3', Ok r3) ->
  bo_t_vals r3 = map (fun t => a * t + s) (bo_t_vals r1) /\ bo_y_vals r3 = map (affine_map (length y) (length z) M v) (bo_y_vals r1).
Proof. exact (fun E1 E3 L1 L3 S1 S3 => @ab_affine E1 E3 L1 L3 S1 S3). Qed.
Print Assumptions C128_ab_affine_change.
(** the first component of a nonlinear system in other units, for every order and every small step *)
Example C128_example_affine : conjugate 2 1 ce_M (fun _ => 3) 10 5 ax_f ax_g /\ [103] = affine_map 2 1 ce_M (fun _ => 3) [1; 2] /\
  exists h, 0 < h /\ forall dt order, 0 < dt <= h -> (1 <= order <= 5)%Z -> exists f1 f3 w1 w3 r1 r3,
    ax_run 2 ax_f f1 0 1 dt [1; 2] order = (w1, Ok r1) /\ ax_run 1 ax_g f3 (10 * 0 + 5) (10 * 1 + 5) (10 * dt) [103] order = (w3, Ok r3).
Proof. exact ax_affine. Qed.

(** ... and respect superposition. *)
Theorem C128_ab_superposition :
  forall (E1 E2 E3 : Env R) (L1 L2 L3 : LinAlg R) (S1 S2 S3 : Type) (F1 : functor R S1) (F2 : functor R S2) (F3 : functor R S3) f g h,
  computes F1 f -> computes F2 g -> computes F3 h ->
  forall n al be order t0 t1 dt fu1 x w1 w1' r1 fu2 y w2 w2' r2 fu3 w3 w3' r3, (order <= 5)%Z -> t0 < t1 ->
  superposes n al be f g h -> length x = n -> length y = n ->
  @adams_bashforth R RScalar L1 E1 S1 fu1 F1 t0 t1 x order dt w1 = (w1', Ok r1) ->
  @adams_bashforth R RScalar L2 E2 S2 fu2 F2 t0 t1 y order dt w2 = (w2', Ok r2) ->
  @adams_bashforth R RScalar L3 E3 S3 fu3 F3 t0 t1 (combination n al be x y) order dt w3 = (w3', Ok r3) ->
  bo_t_vals r2 = bo_t_vals r1 /\ bo_t_vals r3 = bo_t_vals r1 /\
  forall k, (k < length (bo_t_vals r1))%nat -> nth k (bo_y_vals r3) [] = combination n al be (nth k (bo_y_vals r1) []) (nth k (bo_y_vals r2) []).
Proof. exact (fun E1 E2 E3 L1 L2 L3 S1 S2 S3 => @ab_super E1 E2 E3 L1 L2 L3 S1 S2 S3). Qed.
Print Assumptions C128_ab_superposition.
(** twice a linear system and three times a forced one *)
Example C128_example_superposition : superposes 2 2 3 ce_lin ce_forced ce_sum /\
  exists f1 f2 f3 w1 w2 w3 r1 r2 r3, al_run ce_lin f1 0 1 (1 / 4) [1; 0] = (w1, Ok r1) /\ al_run ce_forced f2 0 1 (1 / 4) [0; 1] = (w2, Ok r2) /\
    al_run ce_sum f3 0 1 (1 / 4) (combination 2 2 3 [1; 0] [0; 1]) = (w3, Ok r3).
Proof. exact al_super. Qed.

(** C129.  Adams-Bashforth runs depend continuously on the initial value and the right-hand side: with one constant for each
    order, Lipschitz constant and length of the interval, whatever the dimension, the problem and the step size. *)
Theorem C129_ab_continuous_dependence :
  forall k L T, (1 <= k <= 5)%nat -> 0 <= L -> 0 < T -> exists C, 0 <= C /\
  forall n f g t0 t1 e de, t1 - t0 = T -> lipschitz_in n L t0 t1 f ->
  (forall t y q, t0 <= t <= t1 -> length y = n -> (q < n)%nat -> Rabs (ventry (f t y) q - ventry (g t y) q) <= de) ->
  forall (E1 E2 : Env R) (L1 L2 : LinAlg R) (S1 S2 : Type) (F : functor R S1) (G : functor R S2), computes F f -> computes G g ->
  forall dt fu1 y w1 w1' r1 fu2 z w2 w2' r2, length y = n -> length z = n ->
  @adams_bashforth R RScalar L1 E1 S1 fu1 F t0 t1 y (Z.of_nat k) dt w1 = (w1', Ok r1) ->
  @adams_bashforth R RScalar L2 E2 S2 fu2 G t0 t1 z (Z.of_nat k) dt w2 = (w2', Ok r2) ->
  (forall q, (q < n)%nat -> Rabs (ventry y q - ventry z q) <= e) ->
  bo_t_vals r2 = bo_t_vals r1 /\
  forall i q, (i < length (bo_t_vals r1))%nat -> (q < n)%nat ->
  Rabs (ventry (nth i (bo_y_vals r1) []) q - ventry (nth i (bo_y_vals r2) []) q) <= C * (e + de).
Proof. exact ab_dependence. Qed.
Print Assumptions C129_ab_continuous_dependence.
(** y' = cos y from 1 and y' = cos y + sin t / 100 from 1.1 *)
Example C129_example : (forall t0 t1, lipschitz_in 1 1 t0 t1 ap_f) /\ (forall t y q, (q < 1)%nat -> Rabs (ventry (ap_f t y) q - ventry (ap_g t y) q) <= 1 / 100) /\
  exists h, 0 < h /\ forall dt order, 0 < dt <= h -> (1 <= order <= 5)%Z -> exists f1 f2 w1 w2 r1 r2,
  ax_run 1 ap_f f1 0 2 dt [1] order = (w1, Ok r1) /\ ax_run 1 ap_g f2 0 2 dt [11 / 10] order = (w2, Ok r2).
Proof. exact (conj ap_lipschitz (conj ap_close ap_runs)). Qed.
