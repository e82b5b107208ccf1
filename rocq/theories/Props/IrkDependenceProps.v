(** Property theorem: dependence of implicit runs on the data (C140). *)
From Coq Require Import Reals Lra.
From Verif Require Import Model.Base Model.Scalar Model.LinAlg Model.Newton Model.Enums Model.Options Model.Irk.
From Verif Require Import Spec.Sums Spec.Observe Spec.NewtonSpec Spec.IrkSpec Spec.Methods Spec.ConvergenceSpec.
From Verif Require Import Proofs.ChoiceInstance Proofs.IrkTotalExamples Proofs.IrkDependence Proofs.IrkDependenceExamples.
Local Open Scope R_scope.

(** C140.  Implicit runs depend continuously on the initial value and the right-hand side: with constants h0 and C for each method,
    dimension, Lipschitz constant and length of the interval, two runs on the same times with steps of at most h0, on problems whose
    slopes differ by at most de and from initial values that differ by at most e, stay within C (e + de + k tau) of each other after
    k steps, where tau bounds the tolerances of Newton's iteration in both runs. *)
Theorem C140_irk_continuous_dependence :
  forall (HE : Env R) m n L T, In m implicit_runnable -> 0 <= L -> 0 < T -> exists h0 C, 0 < h0 /\ 0 <= C /\
  forall f g t0 t1 e de, t1 - t0 = T -> lipschitz_in n L t0 t1 f -> lipschitz_in n L t0 t1 g ->
  (forall t y q, t0 <= t <= t1 -> length y = n -> (q < n)%nat -> Rabs (ventry (f t y) q - ventry (g t y) q) <= de) ->
  forall (L1 L2 : LinAlg R) (P1 : ExactProducts L1) (X1 : ExactSolve L1) (U1 : ExactLU L1) (I1 : ExactInverse L1)
    (P2 : ExactProducts L2) (X2 : ExactSolve L2) (U2 : ExactLU L2) (I2 : ExactInverse L2) (S1 S2 : Type) (F : functor R S1) (G : functor R S2),
  computes F f -> jac_matrices F -> jac_bounded F n L t0 t1 -> computes G g -> jac_matrices G -> jac_bounded G n L t0 t1 ->
  forall fu1 y o1 oo1 n1 d1 w1 w1' r1 fu2 z o2 oo2 n2 d2 w2 w2' r2 H tau, 0 < d1 -> 0 < d2 -> length y = n -> length z = n ->
  @irk_odeint R RScalar L1 HE S1 fu1 F t0 t1 y o1 oo1 m d1 w1 = (w1', Ok r1) ->
  @irk_odeint R RScalar L2 HE S2 fu2 G t0 t1 z o2 oo2 m d2 w2 = (w2', Ok r2) ->
  store_in_vectors oo1 = true -> output_interval oo1 = 1%Z -> store_in_vectors oo2 = true -> output_interval oo2 = 1%Z ->
  io_newton o1 = Some n1 -> Rabs (o_tol n1) <= tau -> Rabs (o_dx_delta n1) <= tau ->
  io_newton o2 = Some n2 -> Rabs (o_tol n2) <= tau -> Rabs (o_dx_delta n2) <= tau ->
  (forall q, (q < n)%nat -> Rabs (ventry y q - ventry z q) <= e) -> io_t_vals r2 = io_t_vals r1 -> steps_at_most H (io_t_vals r1) -> H <= h0 ->
  forall k q, (k < length (io_t_vals r1))%nat -> (q < n)%nat ->
  Rabs (ventry (nth k (io_y_vals r1) []) q - ventry (nth k (io_y_vals r2) []) q) <= C * (e + de + INR k * tau).
Proof. exact (fun HE => @irk_dependence HE). Qed.
Print Assumptions C140_irk_continuous_dependence.
(** y' = (cos t, - cos t) from (1, 2) and y' = (0.99 cos t, - 0.99 cos t) from (1.1, 2), on every short interval *)
Example C140_example : (forall t y q, (q < 2)%nat -> Rabs (ventry (it_f cos t y) q - ventry (it_f ij_g t y) q) <= 1 / 100) /\
  (forall g t0 t1, lipschitz_in 2 0 t0 t1 (it_f g)) /\ (forall g t0 t1, jac_bounded (it_F g) 2 0 t0 t1) /\
  forall m, In m implicit_runnable -> exists hs, 0 < hs /\ forall h, 0 < h <= hs -> exists w1 r1 w2 r2,
  @irk_odeint R RScalar choice_LA it_E unit 1 (it_F cos) 0 h [1; 2] (ij_opts (1 / 1000)) output_options_default m h (World tt []) = (w1, Ok r1) /\
  @irk_odeint R RScalar choice_LA it_E unit 1 (it_F ij_g) 0 h [11 / 10; 2] (ij_opts (1 / 1000)) output_options_default m h (World tt []) = (w2, Ok r2) /\
  io_t_vals r1 = [0; h] /\ io_t_vals r2 = io_t_vals r1.
Proof. exact (conj ij_close (conj ij_lipschitz (conj ij_jac ij_runs))). Qed.

(** On the same problem from the same initial value only the tolerance is left: neither the Jacobian the functor supplies nor the
    options of Newton's iteration nor the linear algebra matter beyond it (C119 says the same of explicit runs, exactly). *)
Theorem C140_irk_times_determine_states_to_tolerance :
  forall (HE : Env R) m n L T, In m implicit_runnable -> 0 <= L -> 0 < T -> exists h0 C, 0 < h0 /\ 0 <= C /\
  forall f t0 t1, t1 - t0 = T -> lipschitz_in n L t0 t1 f ->
  forall (L1 L2 : LinAlg R) (P1 : ExactProducts L1) (X1 : ExactSolve L1) (U1 : ExactLU L1) (I1 : ExactInverse L1)
    (P2 : ExactProducts L2) (X2 : ExactSolve L2) (U2 : ExactLU L2) (I2 : ExactInverse L2) (S1 S2 : Type) (F : functor R S1) (G : functor R S2),
  computes F f -> jac_matrices F -> jac_bounded F n L t0 t1 -> computes G f -> jac_matrices G -> jac_bounded G n L t0 t1 ->
  forall fu1 y o1 oo1 n1 d1 w1 w1' r1 fu2 o2 oo2 n2 d2 w2 w2' r2 H tau, 0 < d1 -> 0 < d2 -> length y = n ->
  @irk_odeint R RScalar L1 HE S1 fu1 F t0 t1 y o1 oo1 m d1 w1 = (w1', Ok r1) ->
  @irk_odeint R RScalar L2 HE S2 fu2 G t0 t1 y o2 oo2 m d2 w2 = (w2', Ok r2) ->
  store_in_vectors oo1 = true -> output_interval oo1 = 1%Z -> store_in_vectors oo2 = true -> output_interval oo2 = 1%Z ->
  io_newton o1 = Some n1 -> Rabs (o_tol n1) <= tau -> Rabs (o_dx_delta n1) <= tau ->
  io_newton o2 = Some n2 -> Rabs (o_tol n2) <= tau -> Rabs (o_dx_delta n2) <= tau ->
  io_t_vals r2 = io_t_vals r1 -> steps_at_most H (io_t_vals r1) -> H <= h0 ->
  forall k q, (k < length (io_t_vals r1))%nat -> (q < n)%nat ->
  Rabs (ventry (nth k (io_y_vals r1) []) q - ventry (nth k (io_y_vals r2) []) q) <= C * (INR k * tau).
Proof. exact (fun HE => @irk_states_from_times HE). Qed.
Print Assumptions C140_irk_times_determine_states_to_tolerance.
(** the same problem with tolerances 1e-3 and 1e-6 *)
Example C140_example_tolerances : forall m, In m implicit_runnable -> exists hs, 0 < hs /\ forall h, 0 < h <= hs -> exists w1 r1 w2 r2,
  @irk_odeint R RScalar choice_LA it_E unit 1 (it_F cos) 0 h [1; 2] (ij_opts (1 / 1000)) output_options_default m h (World tt []) = (w1, Ok r1) /\
  @irk_odeint R RScalar choice_LA it_E unit 1 (it_F cos) 0 h [1; 2] (ij_opts (1 / 1000000)) output_options_default m h (World tt []) = (w2, Ok r2) /\
  io_t_vals r1 = [0; h] /\ io_t_vals r2 = io_t_vals r1.
Proof. exact ij_tolerances. Qed.
