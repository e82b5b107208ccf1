(** Property theorems: the BDF solver on linear problems y' = A(t) y + g(t) (C132, C133), and when the multistep solvers return (C78). *)
From Coq Require Import Reals Lra.
From Verif Require Import Model.Base Model.Scalar Model.LinAlg Model.Newton Model.Enums Model.Options Model.Irk Model.Multistep.
From Verif Require Import Spec.Sums Spec.Observe Spec.NewtonSpec Spec.IrkSpec Spec.IrkTotalSpec Spec.MultistepSpec Spec.Covariance Spec.StabilitySpec Spec.BdfLinearSpec.
From Verif Require Import Proofs.ChoiceInstance Proofs.ChoiceLU Proofs.IrkTotalExamples Proofs.IrkShortNear Proofs.BdfLinear Proofs.BdfLinearExamples.
Local Open Scope R_scope.

(** C78.  The slopes need not be bounded everywhere: a bound near the initial values in P (and on the Jacobian) is enough for a step
    size below which both multistep solvers return from every initial value in P, on every interval.  Every linear problem with
    bounded coefficients is of this kind, for every bounded set P of initial values. *)
Theorem C78_multistep_returns_near :
  forall (LA : LinAlg R) (HP : ExactProducts LA) (HX : ExactSolve LA) (HLU : ExactLU LA) (HI : ExactInverse LA) (HE : Env R) (St : Type)
    (F : functor R St) f n P rho B K,
  ndebug = false -> (0 < n)%nat -> 0 <= K ->
  returns_dim F n -> computes F f -> returns_jac F n -> jac_matrices F -> 0 < rho -> bounded_near F n P rho B K ->
  (forall t y J p q, jac_answers F t y J -> (p < n)%nat -> (q < n)%nat -> Rabs (mentry J p q) <= K) ->
  exists hs, 0 < hs /\ forall t0 t1 dt y0 order w, length y0 = n -> P y0 -> t0 < t1 -> 0 < dt <= hs ->
    ((1 <= order <= 5)%Z -> exists fuel w' sol, adams_bashforth fuel F t0 t1 y0 order dt w = (w', Ok sol)) /\
    ((1 <= order <= 6)%Z -> exists fuel w' sol, bdf fuel F t0 t1 y0 order dt w = (w', Ok sol)).
Proof. exact (fun LA HP HX HLU HI HE St => @multistep_near LA HP HX HLU HI HE St). Qed.
Print Assumptions C78_multistep_returns_near.
(** a stiff forced oscillator whose frequency swings: x' = -x - 1000 cos(t) y + sin t, y' = 1000 cos(t) x - y + 1 *)
Example C78_near_example : exists h, 0 < h /\ forall dt order, 0 < dt <= h ->
  ((1 <= order <= 5)%Z -> exists fuel w sol, la_ab 2 lo_A lo_g fuel 0 100 dt [3; 4] order = (w, Ok sol)) /\
  ((1 <= order <= 6)%Z -> exists fuel w sol, la_bdf 2 lo_A lo_g fuel 0 100 dt [3; 4] order = (w, Ok sol)).
Proof. exact (lo_runs lo_g 1 (fun t p _ => lo_gbound t p)). Qed.

(** C132.  The BDF solver with order 1 or 2 on y' = A(t) y with <A(t) x, x> <= - mu |x|^2, mu >= 0, for every step size: the run
    succeeds, and |y_i|^2 + 2 k mu h (|y_(k+1)|^2 + ... + |y_i|^2) <= k |y0|^2 for the order k, however stiff the problem and however
    many steps it makes.  (The values up to y_k are copies of y0, by C59.) *)
Theorem C132_bdf_damped_problems :
  forall (LA : LinAlg R) (HP : ExactProducts LA) (HX : ExactSolve LA) (HN : ExactNorm LA) (HE : Env R) (St : Type)
    (F : functor R St) A mu order t0 t1 dt fuel y0 w w' sol,
  affine_problem F (length y0) A (fun _ _ => 0) -> 0 <= mu -> (forall t, damped_by mu (length y0) (A t)) ->
  (order = 1 \/ order = 2)%Z -> t0 < t1 -> 0 < dt ->
  bdf fuel F t0 t1 y0 order dt w = (w', Ok sol) ->
  let k := Z.to_nat order in let n := length y0 in let size i := norm2 n (nth i (bo_y_vals sol) []) in
  bo_status sol = SUCCESS /\
  forall i, (k <= i < length (bo_y_vals sol))%nat ->
    size i + 2 * INR k * mu * Rmin dt (t1 - t0) * Rsum (i - k) (fun j => size (S k + j)%nat) <= INR k * norm2 n y0.
Proof. exact (fun LA HP HX HN HE St => @bdf_damped LA HP HX HN HE St). Qed.
Print Assumptions C132_bdf_damped_problems.
Example C132_example : affine_problem (la_F 2 lo_A (fun _ _ => 0)) 2 lo_A (fun _ _ => 0) /\ (forall t, damped_by 1 2 (lo_A t)) /\
  exists h, 0 < h /\ forall dt order, 0 < dt <= h -> (1 <= order <= 6)%Z -> exists fuel w sol, la_bdf 2 lo_A (fun _ _ => 0) fuel 0 100 dt [3; 4] order = (w, Ok sol).
Proof. exact lo_damped_runs. Qed.

(** C133.  Changes of variables and units: if z(a t + s) = v + M y(t) turns y' = A(t) y + g(t) into z' = B(t) z + k(t), the BDF run on
    the second problem with the step size a dt is the image of the run on the first one, time for time and value for value. *)
Theorem C133_bdf_affine_change :
  forall (E1 E3 : Env R) (L1 L3 : LinAlg R) (P1 : ExactProducts L1) (P3 : ExactProducts L3) (X1 : ExactSolve L1) (X3 : ExactSolve L3)
    (N1 : ExactNorm L1) (N3 : ExactNorm L3) (S1 S3 : Type) (F1 : functor R S1) (F3 : functor R S3)
    A g B k M v a s order t0 t1 dt fu1 y w1 w1' r1 fu3 z w3 w3' r3,
  affine_problem F1 (length y) A g -> affine_problem F3 (length z) B k -> 0 < a -> (1 <= order <= 6)%Z -> t0 < t1 ->
  (let c := Rmin dt (t1 - t0) * bdf_beta (Z.to_nat order) in bdf_solvable (length y) c A /\ bdf_solvable (length z) (a * c) B) ->
  conjugate (length y) (length z) M v a s (affine_rhs (length y) A g) (affine_rhs (length z) B k) -> z = affine_map (length y) (length z) M v y ->
  @bdf R RScalar L1 E1 S1 fu1 F1 t0 t1 y order dt w1 = (w1', Ok r1) ->
  @bdf R RScalar L3 E3 S3 fu3 F3 (a * t0 + s) (a * t1 + s) z order (a * dt) w3 = (w3', Ok r3) ->
  bo_t_vals r3 = map (fun t => a * t + s) (bo_t_vals r1) /\ bo_y_vals r3 = map (affine_map (length y) (length z) M v) (bo_y_vals r1).
Proof. exact (fun E1 E3 L1 L3 P1 P3 X1 X3 N1 N3 S1 S3 => @bdf_affine_change E1 E3 L1 L3 P1 P3 X1 X3 N1 N3 S1 S3). Qed.
Print Assumptions C133_bdf_affine_change.
(** Superposition: the run on y' = A(t) y + al g1(t) + be g2(t) from al x + be y is al times the run on y' = A(t) y + g1(t) from x plus
    be times the run on y' = A(t) y + g2(t) from y. *)
Theorem C133_bdf_superposition :
  forall (E1 E2 E3 : Env R) (L1 L2 L3 : LinAlg R) (P1 : ExactProducts L1) (P2 : ExactProducts L2) (P3 : ExactProducts L3)
    (X1 : ExactSolve L1) (X2 : ExactSolve L2) (X3 : ExactSolve L3) (N1 : ExactNorm L1) (N2 : ExactNorm L2) (N3 : ExactNorm L3)
    (S1 S2 S3 : Type) (F1 : functor R S1) (F2 : functor R S2) (F3 : functor R S3)
    n A g1 g2 al be order t0 t1 dt fu1 x w1 w1' r1 fu2 y w2 w2' r2 fu3 w3 w3' r3,
  affine_problem F1 n A g1 -> affine_problem F2 n A g2 -> affine_problem F3 n A (fun t p => al * g1 t p + be * g2 t p) ->
  (1 <= order <= 6)%Z -> t0 < t1 -> bdf_solvable n (Rmin dt (t1 - t0) * bdf_beta (Z.to_nat order)) A -> length x = n -> length y = n ->
  @bdf R RScalar L1 E1 S1 fu1 F1 t0 t1 x order dt w1 = (w1', Ok r1) ->
  @bdf R RScalar L2 E2 S2 fu2 F2 t0 t1 y order dt w2 = (w2', Ok r2) ->
  @bdf R RScalar L3 E3 S3 fu3 F3 t0 t1 (combination n al be x y) order dt w3 = (w3', Ok r3) ->
  bo_t_vals r2 = bo_t_vals r1 /\ bo_t_vals r3 = bo_t_vals r1 /\
  forall k, (k < length (bo_t_vals r1))%nat -> nth k (bo_y_vals r3) [] = combination n al be (nth k (bo_y_vals r1) []) (nth k (bo_y_vals r2) []).
Proof. exact (fun E1 E2 E3 L1 L2 L3 P1 P2 P3 X1 X2 X3 N1 N2 N3 S1 S2 S3 => @bdf_super E1 E2 E3 L1 L2 L3 P1 P2 P3 X1 X2 X3 N1 N2 N3 S1 S2 S3). Qed.
Print Assumptions C133_bdf_superposition.
Example C133_example :
  (conjugate 2 2 lo_M (fun _ => 3) 10 5 (affine_rhs 2 lo_A lo_g) (affine_rhs 2 lo_B lo_k) /\ [9; 11] = affine_map 2 2 lo_M (fun _ => 3) [3; 4] /\
   (forall c, 0 <= c -> bdf_solvable 2 c lo_A /\ bdf_solvable 2 (10 * c) lo_B) /\
   exists h, 0 < h /\ forall dt order, 0 < dt <= h -> (1 <= order <= 6)%Z -> exists f1 f3 w1 w3 r1 r3,
     la_bdf 2 lo_A lo_g f1 0 100 dt [3; 4] order = (w1, Ok r1) /\ la_bdf 2 lo_B lo_k f3 (10 * 0 + 5) (10 * 100 + 5) (10 * dt) [9; 11] order = (w3, Ok r3)) /\
  ((forall c, 0 <= c -> bdf_solvable 2 c lo_A) /\
   affine_problem (la_F 2 lo_A lo_g) 2 lo_A lo_g /\ affine_problem (la_F 2 lo_A (fun _ _ => 0)) 2 lo_A (fun _ _ => 0) /\ affine_problem (la_F 2 lo_A lo_sum) 2 lo_A lo_sum /\
   exists h, 0 < h /\ forall dt order, 0 < dt <= h -> (1 <= order <= 6)%Z -> exists f1 f2 f3 w1 w2 w3 r1 r2 r3,
     la_bdf 2 lo_A lo_g f1 0 100 dt [3; 4] order = (w1, Ok r1) /\ la_bdf 2 lo_A (fun _ _ => 0) f2 0 100 dt [3; 4] order = (w2, Ok r2) /\
     la_bdf 2 lo_A lo_sum f3 0 100 dt (combination 2 2 3 [3; 4] [3; 4]) order = (w3, Ok r3)).
Proof. exact (conj lo_affine lo_super). Qed.
