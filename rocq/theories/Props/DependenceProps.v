(** Properties C126-C127: dependence on the data, and convergence for problems that are merely Lipschitz. *)
From Coq Require Import Reals Lra.
From Verif Require Import Model.Base Model.Scalar Model.LinAlg Model.Enums Model.Options Model.Coeffs Model.Erk.
From Verif Require Import Spec.Sums Spec.Observe Spec.ErkSpec Spec.Methods Spec.ConvergenceSpec.
From Verif Require Import Proofs.ExactInstance Proofs.ErkExamples Proofs.CovarianceExamples Proofs.Perturb Proofs.PerturbExamples.
Local Open Scope R_scope.

(** C126.  Explicit runs depend continuously on the initial value and the right-hand side: with one constant for each method,
    Lipschitz constant and length of the interval, whatever the dimension, the problem and the step sizes, two runs on the same
    times stay within C times the differences of their data ... *)
Theorem C126_erk_continuous_dependence :
  forall m L T, In m explicit_methods -> 0 <= L -> 0 < T -> exists C, 0 <= C /\
  forall n f g t0 t1 e de, t1 - t0 = T -> lipschitz_in n L t0 t1 f ->
  (forall t y q, t0 <= t <= t1 -> length y = n -> (q < n)%nat -> Rabs (ventry (f t y) q - ventry (g t y) q) <= de) ->
  forall (E1 E2 : Env R) (L1 L2 : LinAlg R) (X1 : ExactProducts L1) (X2 : ExactProducts L2) (S1 S2 : Type) (F : functor R S1) (G : functor R S2),
  computes F f -> computes G g ->
  forall fu1 y o1 oo1 d1 w1 w1' r1 fu2 z o2 oo2 d2 w2 w2' r2, 0 < d1 -> 0 < d2 -> length y = n -> length z = n ->
  @erk_odeint R RScalar L1 E1 S1 fu1 F t0 t1 y o1 oo1 m d1 w1 = (w1', Ok r1) ->
  @erk_odeint R RScalar L2 E2 S2 fu2 G t0 t1 z o2 oo2 m d2 w2 = (w2', Ok r2) ->
  (forall q, (q < n)%nat -> Rabs (ventry y q - ventry z q) <= e) -> eo_t_vals r2 = eo_t_vals r1 ->
  forall k q, (k < length (eo_t_vals r1))%nat -> (q < n)%nat ->
  Rabs (ventry (nth k (eo_y_vals r1) []) q - ventry (nth k (eo_y_vals r2) []) q) <= C * (e + de).
Proof. exact erk_dependence. Qed.
Print Assumptions C126_erk_continuous_dependence.
(** ... and successful runs with the same fixed step are on the same times. *)
Theorem C126_fixed_steps_same_times :
  forall (E1 E2 : Env R) (L1 L2 : LinAlg R) (S1 S2 : Type) (F : functor R S1) (G : functor R S2) m t0 t1 dt fu1 y o1 oo1 w1 w1' r1 fu2 z o2 oo2 w2 w2' r2,
  In m explicit_methods -> t0 < t1 -> 0 < dt -> (eo_adaptive o1 = false /\ eo_adaptive o2 = false) \/ ~ In m explicit_embedded ->
  @erk_odeint R RScalar L1 E1 S1 fu1 F t0 t1 y o1 oo1 m dt w1 = (w1', Ok r1) -> eo_status r1 = SUCCESS ->
  @erk_odeint R RScalar L2 E2 S2 fu2 G t0 t1 z o2 oo2 m dt w2 = (w2', Ok r2) -> eo_status r2 = SUCCESS ->
  eo_t_vals r2 = eo_t_vals r1.
Proof. exact (fun E1 E2 L1 L2 S1 S2 => @same_fixed_times E1 E2 L1 L2 S1 S2). Qed.
Print Assumptions C126_fixed_steps_same_times.
(** y' = t - |y| from 1 and y' = t - |y| + sin(y)/100 from 1.1 *)
Example C126_example : (forall t0 t1, lipschitz_in 1 1 t0 t1 pk_f) /\ (forall t y q, (q < 1)%nat -> Rabs (ventry (pk_f t y) q - ventry (pk_g t y) q) <= 1 / 100) /\
  forall m, In m explicit_methods -> exists f1 f2 w1 w2 r1 r2,
  ce_run pk_f f1 0 2 (1 / 10) [1] m = (w1, Ok r1) /\ eo_status r1 = SUCCESS /\ ce_run pk_g f2 0 2 (1 / 10) [11 / 10] m = (w2, Ok r2) /\ eo_status r2 = SUCCESS.
Proof. exact (conj pk_lipschitz (conj pk_close pk_runs)). Qed.

(** C127.  Explicit runs converge, with order one, on problems that need not be smooth: f Lipschitz in y and a solution with
    Lipschitz slope, for steps of any size at most H ... *)
Theorem C127_erk_converges_lipschitz :
  forall m n f phi t0 t1 L K M, In m explicit_methods -> t0 < t1 -> 0 <= L -> solves n f t0 t1 phi -> lipschitz_in n L t0 t1 f -> slopes_steady n K M t0 t1 f phi ->
  exists C, 0 <= C /\
  forall (E : Env R) (LA : LinAlg R) (X : ExactProducts LA) (St : Type) (F : functor R St), computes F f ->
  forall fuel o oo dt w w' sol H, 0 < dt -> erk_odeint fuel F t0 t1 (phi t0) o oo m dt w = (w', Ok sol) ->
  steps_at_most H (eo_t_vals sol) -> 0 <= H ->
  forall k q, (k < length (eo_t_vals sol))%nat -> (q < n)%nat ->
  Rabs (ventry (nth k (eo_y_vals sol) []) q - ventry (phi (nth k (eo_t_vals sol) 0)) q) <= C * H.
Proof. exact erk_lipschitz_converges. Qed.
Print Assumptions C127_erk_converges_lipschitz.
(** ... and with fixed steps of any size dt: the run succeeds, ends at t1, and is within C dt of the solution. *)
Theorem C127_erk_fixed_converges_lipschitz :
  forall m n f phi t0 t1 L K M, In m explicit_methods -> t0 < t1 -> 0 <= L -> solves n f t0 t1 phi -> lipschitz_in n L t0 t1 f -> slopes_steady n K M t0 t1 f phi ->
  preserves_dim f n -> exists C, 0 <= C /\
  forall (E : Env R) (LA : LinAlg R) (X : ExactProducts LA) (St : Type) (F : functor R St), total_fun F f ->
  forall o oo dt, (write_to_file oo = true -> output_stream oo <> None) -> eo_adaptive o = false \/ ~ In m explicit_embedded -> (eo_max_steps o < 0)%Z -> 0 < dt ->
  forall w, exists w' sol, (exists fuel0, forall fuel, (fuel0 <= fuel)%nat -> erk_odeint fuel F t0 t1 (phi t0) o oo m dt w = (w', Ok sol)) /\
  eo_status sol = SUCCESS /\ last (eo_t_vals sol) t0 = t1 /\
  (forall k q, (k < length (eo_t_vals sol))%nat -> (q < n)%nat ->
    Rabs (ventry (nth k (eo_y_vals sol) []) q - ventry (phi (nth k (eo_t_vals sol) 0)) q) <= C * dt) /\
  forall q, (q < n)%nat -> Rabs (ventry (last (eo_y_vals sol) []) q - ventry (phi t1) q) <= C * dt.
Proof. exact erk_lipschitz_fixed. Qed.
Print Assumptions C127_erk_fixed_converges_lipschitz.
(** y' = |t - 1/2|: the solution has no second derivative at 1/2 *)
Example C127_example : solves 1 kink_f 0 1 kink_phi /\ lipschitz_in 1 0 0 1 kink_f /\ slopes_steady 1 1 1 0 1 kink_f kink_phi /\
  preserves_dim kink_f 1 /\ total_fun (exr_fun kink_f) kink_f.
Proof. exact (conj kink_solves (conj kink_lipschitz (conj kink_steady (conj (fun t y _ => eq_refl) (exr_total kink_f))))). Qed.
