(** Property theorem: the implicit integrator on problems that are not smooth (C136). *)
From Coq Require Import Reals Lra.
From Verif Require Import Model.Base Model.Scalar Model.LinAlg Model.Newton Model.Enums Model.Options Model.Irk.
From Verif Require Import Spec.Sums Spec.Observe Spec.NewtonSpec Spec.IrkSpec Spec.Methods Spec.ConvergenceSpec.
From Verif Require Import Proofs.ChoiceInstance Proofs.IrkTotalExamples Proofs.ConvergenceIrkExamples Proofs.IrkLipschitz Proofs.IrkLipschitzExamples.
Local Open Scope R_scope.

(** C136.  Runs of the implicit integrator converge, with order one, on problems that need not be smooth: f Lipschitz in y and a
    solution with Lipschitz slope.  The state after k steps of at most H is within C (H + k tau) of the solution, for every
    tolerance tau of Newton's iteration (C86 needs smooth problems and small tolerances, and then gives the order of the method). *)
Theorem C136_irk_converges_lipschitz :
  forall (HE : Env R) m p n f phi t0 t1 L K M, In (m, p) implicit_orders -> In m implicit_runnable -> t0 < t1 -> 0 <= L ->
  solves n f t0 t1 phi -> lipschitz_in n L t0 t1 f -> slopes_steady n K M t0 t1 f phi ->
  exists h0 C, 0 < h0 /\ 0 <= C /\
  forall (LA : LinAlg R) (HP : ExactProducts LA) (HX : ExactSolve LA) (HLU : ExactLU LA) (HI : ExactInverse LA) (St : Type) (F : functor R St),
  computes F f -> jac_matrices F -> jac_bounded F n L t0 t1 ->
  forall fuel opts oo nopts dt w w' sol H tau, (ndebug = false \/ 0 < dt) ->
  irk_odeint fuel F t0 t1 (phi t0) opts oo m dt w = (w', Ok sol) ->
  store_in_vectors oo = true -> output_interval oo = 1%Z ->
  io_newton opts = Some nopts -> Rabs (o_tol nopts) <= tau -> Rabs (o_dx_delta nopts) <= tau ->
  steps_at_most H (io_t_vals sol) -> 0 <= H <= h0 ->
  forall k q, (k < length (io_t_vals sol))%nat -> (q < n)%nat ->
  Rabs (ventry (nth k (io_y_vals sol) []) q - ventry (phi (nth k (io_t_vals sol) 0)) q) <= C * (H + INR k * tau).
Proof. exact (fun HE => @irk_lipschitz_converges HE). Qed.
Print Assumptions C136_irk_converges_lipschitz.
(** y' = (|t - 1/2|, - |t - 1/2|) on [0, 1]: the solution has no second derivative at 1/2 *)
Example C136_example : solves 2 (it_f ik_g) 0 1 ik_phi /\ (forall t, 0 <= t <= 1 -> ik_g t = Rabs (t - 1 / 2)) /\
  lipschitz_in 2 0 0 1 (it_f ik_g) /\ slopes_steady 2 1 1 0 1 (it_f ik_g) ik_phi /\ jac_bounded (it_F ik_g) 2 0 0 1 /\
  forall m h tau, In m implicit_runnable -> 0 < h -> 0 < tau -> exists fuel w' sol,
    @irk_odeint R RScalar choice_LA it_E unit fuel (it_F ik_g) 0 1 (ik_phi 0) (ic_opts h tau) output_options_default m h (World tt []) = (w', Ok sol).
Proof. exact (conj ik_solves (conj ik_g_inside (conj ik_lipschitz (conj ik_steady (conj ik_jac ik_run))))). Qed.
