(** Property theorems: calls that return (C76-C78).  The model's errors are [EAbort] (a failed assert), [EThrow] (an exception),
    [EUB] (undefined behaviour) and [EFuel] (the evaluation was cut off after [fuel] attempted steps). *)
From Coq Require Import Reals Lra.
From Verif Require Import Model.Base Model.Scalar Model.LinAlg Model.Newton Model.Enums Model.Options Model.Coeffs Model.IrkCoeffs Model.Irk Model.Multistep.
From Verif Require Import Spec.Sums Spec.Observe Spec.NewtonSpec Spec.IrkSpec Spec.IrkTotalSpec Spec.MultistepSpec.
From Verif Require Import Proofs.ChoiceInstance Proofs.ChoiceLU Proofs.TablesGeneric Proofs.IrkReturns Proofs.IrkShort Proofs.MultistepTotal Proofs.IrkTotalExamples.
Local Open Scope R_scope.

(** C76.  An adaptive run with one of the seven methods that can run, on a problem whose right-hand side and Jacobian answer with
    the dimension of y0 and whose linear systems are solvable for the steps attempted (steps up to hmax, when the interval or dt and
    max_dt are at most hmax), never throws, never aborts and does nothing undefined.  (The bound
    keeps the growing iteration limit within an int; it concerns the steps the run may make.) *)
Theorem C76_irk_never_fails :
  forall (LA : LinAlg R) (HX : ExactSolve LA) (HLU : ExactLU LA) (HI : ExactInverse LA) (HE : Env R) (St : Type)
    (F : functor R St) t0 t1 y0 opts oo m dt nopts sc hmax bound fuel w,
  ndebug = false -> In m implicit_runnable -> irk_get_coefficients m = Ok sc ->
  io_adaptive opts = true -> io_newton opts = Some nopts -> (0 <= o_maxit nopts)%Z -> o_refresh_jac nopts <> 0%Z ->
  usable_output oo -> 0 < dt -> t0 < t1 -> (0 < length y0)%nat ->
  returns_dim F (length y0) -> returns_jac F (length y0) -> solvable_up_to F (length y0) sc hmax ->
  (t1 - t0 <= hmax \/ dt <= hmax /\ 0 < io_max_dt opts <= hmax) ->
  (o_maxit nopts * (16 + bound) < 2 ^ 34)%Z -> (0 <= io_max_steps opts <= bound \/ Z.of_nat fuel <= bound + 1)%Z ->
  exists w' r, irk_odeint fuel F t0 t1 y0 opts oo m dt w = (w', r) /\ (r = Err EFuel \/ exists sol, r = Ok sol).
Proof. exact (fun LA HX HLU HI HE St => @irk_never_fails LA HX HLU HI HE St). Qed.
Print Assumptions C76_irk_never_fails.
(** y' = (cos t, - cos t), the default Newton limits, up to a million attempts: *)
Example C76_example : forall m fuel, In m implicit_runnable -> (Z.of_nat fuel <= 1000000)%Z -> exists w' r,
  @irk_odeint R RScalar choice_LA it_E unit fuel (it_F cos) 0 1000 [1; 2] (IrkOptions true (1 / 1000) (1 / 1000) 0 (-1) (Some options_default)) output_options_default m (1 / 10) (World tt []) = (w', r) /\
  (r = Err EFuel \/ exists sol, r = Ok sol).
Proof.
  intros m fuel Hm Hf. destruct (irk_get_ok (T := R) m) as (sc & Hsc & _).
  apply (C76_irk_never_fails choice_LA _ _ _ it_E unit (it_F cos) 0 1000 [1; 2] _ _ m (1 / 10) options_default sc 1000 1000000 fuel); try reflexivity; try assumption; try (cbn; lra); try (cbn; lia).
  - split; [cbn; lia|cbn; discriminate].
  - apply it_dim.
  - apply it_returns_jac.
  - apply it_solvable.
Qed.

(** C77.  With a step limit and a bounded right-hand side and Jacobian the run returns. *)
Theorem C77_irk_returns :
  forall (LA : LinAlg R) (HP : ExactProducts LA) (HX : ExactSolve LA) (HLU : ExactLU LA) (HI : ExactInverse LA) (HE : Env R) (St : Type)
    (F : functor R St) f t0 t1 y0 opts oo m dt nopts sc hmax B K,
  ndebug = false -> In m implicit_runnable -> irk_get_coefficients m = Ok sc -> io_newton opts = Some nopts ->
  (2 <= o_maxit nopts)%Z -> 0 < o_tol nopts -> o_refresh_jac nopts <> 0%Z ->
  io_adaptive opts = true -> 0 < io_abs_tol opts -> 0 <= io_rel_tol opts -> usable_output oo -> 0 < dt -> t0 < t1 -> (0 < length y0)%nat ->
  returns_dim F (length y0) -> computes F f -> returns_jac F (length y0) -> jac_matrices F ->
  bounded_rhs F (length y0) B K -> solvable_up_to F (length y0) sc hmax ->
  (t1 - t0 <= hmax \/ dt <= hmax /\ 0 < io_max_dt opts <= hmax) ->
  (0 <= io_max_steps opts)%Z -> (o_maxit nopts * (16 + io_max_steps opts) < 2 ^ 34)%Z ->
  exists fuel0, forall fuel w, (fuel0 <= fuel)%nat -> exists w' sol, irk_odeint fuel F t0 t1 y0 opts oo m dt w = (w', Ok sol).
Proof. exact (fun LA HP HX HLU HI HE St => @irk_returns LA HP HX HLU HI HE St). Qed.
Print Assumptions C77_irk_returns.
Example C77_example : forall m, In m implicit_runnable -> exists fuel w' sol,
  @irk_odeint R RScalar choice_LA it_E unit fuel (it_F cos) 0 2 [1; 2] (it_opts 1000) output_options_default m (1 / 10) (World tt []) = (w', Ok sol).
Proof. intros m Hm. exact (it_run cos it_cos m [1; 2] Hm eq_refl). Qed.

(** C78.  For such problems there is a step size below which both multistep solvers return, on every interval. *)
Theorem C78_multistep_returns_for_small_steps :
  forall (LA : LinAlg R) (HP : ExactProducts LA) (HX : ExactSolve LA) (HLU : ExactLU LA) (HI : ExactInverse LA) (HE : Env R) (St : Type)
    (F : functor R St) f n sc B K hmax,
  ndebug = false -> irk_get_coefficients LOBATTO_IIIC_85 = Ok sc -> (0 < n)%nat ->
  returns_dim F n -> computes F f -> returns_jac F n -> jac_matrices F -> bounded_rhs F n B K -> 0 < hmax -> solvable_up_to F n sc hmax ->
  exists hs, 0 < hs /\ forall t0 t1 dt y0 order w, length y0 = n -> t0 < t1 -> 0 < dt <= hs ->
    ((1 <= order <= 5)%Z -> exists fuel w' sol, adams_bashforth fuel F t0 t1 y0 order dt w = (w', Ok sol)) /\
    ((1 <= order <= 6)%Z -> exists fuel w' sol, bdf fuel F t0 t1 y0 order dt w = (w', Ok sol)).
Proof. exact (fun LA HP HX HLU HI HE St => @multistep_short LA HP HX HLU HI HE St). Qed.
Print Assumptions C78_multistep_returns_for_small_steps.
Example C78_example : exists h, 0 < h /\
  (forall order, (1 <= order <= 5)%Z -> exists fuel w' sol, @adams_bashforth R RScalar choice_LA it_E unit fuel (it_F cos) 0 (20 * h) [1; 2] order h (World tt []) = (w', Ok sol)) /\
  (forall order, (1 <= order <= 6)%Z -> exists fuel w' sol, @bdf R RScalar choice_LA it_E unit fuel (it_F cos) 0 (20 * h) [1; 2] order h (World tt []) = (w', Ok sol)).
Proof. exact (it_multistep cos it_cos [1; 2] eq_refl). Qed.
