(** Property theorems: nonlinear problems whose solutions do not move away from a centre (C113). *)
From Coq Require Import Reals Lra.
From Verif Require Import Model.Base Model.Scalar Model.LinAlg Model.Newton Model.Enums Model.Options Model.Coeffs Model.IrkCoeffs Model.Irk.
From Verif Require Import Spec.Sums Spec.Observe Spec.NewtonSpec Spec.IrkSpec Spec.IrkTotalSpec Spec.StabilitySpec.
From Verif Require Import Proofs.ChoiceInstance Proofs.ChoiceLU Proofs.IrkTotalExamples Proofs.CoerciveRuns Proofs.CoerciveExamples.
Local Open Scope R_scope.

(** C113.  When <f(t, y), y - c> <= 0 everywhere, the distance to c between recorded points i < j of a run of RADAU_IIA_32 or
    RADAU_IIA_53 grows at most by a constant of the method times the tolerance of Newton's iteration for each step in between (plus, if
    the iteration may also stop because its increment is below dx_delta, kappa dx_delta per unit of time, where kappa bounds the error
    of the Jacobian).  Neither the size of the steps nor the stiffness of f enters. *)
Theorem C113_radau_nonlinear_growth :
  forall (LA : LinAlg R) (HP : ExactProducts LA) (HX : ExactSolve LA) (HLU : ExactLU LA) (HI : ExactInverse LA) (HE : Env R) (St : Type)
    (F : functor R St) f n c m C kappa fuel t0 t1 y0 opts nopts oo dt w w' sol,
  In (m, C) radau_growth -> computes F f -> jac_matrices F -> attracted_to n f c -> length y0 = n ->
  (ndebug = false \/ (t0 < t1 /\ 0 < dt)) -> (0 < output_interval oo)%Z ->
  io_newton opts = Some nopts -> 0 <= o_tol nopts -> 0 <= o_dx_delta nopts -> 0 <= kappa -> o_dx_delta nopts = 0 \/ jac_error F n f kappa ->
  irk_odeint fuel F t0 t1 y0 opts oo m dt w = (w', Ok sol) ->
  length (io_t_vals sol) = length (io_y_vals sol) /\
  forall i j, (i < j)%nat -> (j < length (io_y_vals sol))%nat ->
    dist n (nth j (io_y_vals sol) []) c <= dist n (nth i (io_y_vals sol) []) c +
      C * (IZR (output_interval oo) * INR (j - i) * o_tol nopts + kappa * o_dx_delta nopts * (nth j (io_t_vals sol) 0 - nth i (io_t_vals sol) 0)).
Proof.
  intros LA HP HX HLU HI HE St F f n c m C kappa fuel t0 t1 y0 opts nopts oo dt w w' sol Hm HF HJ Hc Hn Hs Ho Hno Ht Hd Hk Hj Hrun.
  exact (radau_run F f n c m C kappa Hm HF HJ Hc fuel t0 t1 y0 opts nopts oo dt w w' sol Hn Hs Ho Hno Ht Hd Hk Hj Hrun).
Qed.
Print Assumptions C113_radau_nonlinear_growth.
(** y' = - L y / (1 + y^2) for every L >= 0, over every interval and with every first step. *)
Example C113_example : forall m C L t1 dt y0, In (m, C) radau_growth -> 0 <= L -> 0 < t1 -> 0 < dt -> exists fuel w' sol,
  @irk_odeint R RScalar choice_LA it_E unit fuel (sn_F L) 0 t1 [y0] (it_opts 1000) output_options_default m dt (World tt []) = (w', Ok sol) /\
  forall i j, (i < j)%nat -> (j < length (io_y_vals sol))%nat ->
    dist 1 (nth j (io_y_vals sol) []) [0] <= dist 1 (nth i (io_y_vals sol) []) [0] +
      C * (1 * INR (j - i) * (1 / 1000) + 2 * L * (1 / 1000) * (nth j (io_t_vals sol) 0 - nth i (io_t_vals sol) 0)).
Proof.
  intros m C L t1 dt y0 Hm HL Ht Hdt. destruct (sn_run L HL m C t1 dt y0 Hm Ht Hdt) as (fuel & w' & sol & Hrun). exists fuel, w', sol. split; [exact Hrun|].
  apply (C113_radau_nonlinear_growth choice_LA _ _ _ _ it_E unit (sn_F L) (sn_f L) 1 [0] m C (2 * L) fuel 0 t1 [y0] (it_opts 1000) it_nopts output_options_default dt (World tt []) w' sol
    Hm (sn_computes L) (sn_matrices L) (sn_attracted L HL) eq_refl (or_introl eq_refl) eq_refl eq_refl); try (cbn; lra); [|exact Hrun]. right. apply sn_jac_error, HL.
Qed.
