(** Property C125: the units, signs and order of the variables, and the unit and origin of time. *)
From Coq Require Import Reals.
From Verif Require Import Model.Base Model.Scalar Model.LinAlg Model.Enums Model.Options Model.Coeffs Model.Erk.
From Verif Require Import Spec.Sums Spec.Observe Spec.ErkSpec Spec.Methods Spec.Units.
From Verif Require Import Proofs.ExactInstance Proofs.ErkExamples Proofs.ErkUnits.
Local Open Scope R_scope.

(** C125.  Restating a problem in other units of the variables and of time, with some signs changed and the variables in another
    order, and the absolute tolerance, step limit and first step with it, restates the run, adaptive or not: the same attempts,
    rejections and outcome, the same times, states and error estimates in the new units, and the same lines in the file. *)
Theorem C125_erk_units :
  forall (E : Env R) (L1 L2 : LinAlg R) (X1 : ExactProducts L1) (X2 : ExactProducts L2) (St : Type) n pi u mu a s (F G : functor R St),
  reorders n pi -> (forall q, (q < n)%nat -> Rabs (u q) = mu) -> 0 < mu -> 0 < a -> restated n pi u a s F G ->
  forall fuel t0 t1 y0 o oo m dt st, length y0 = n ->
  match @erk_odeint R RScalar L1 E St fuel F t0 t1 y0 o oo m dt (World st []),
        @erk_odeint R RScalar L2 E St fuel G (a * t0 + s) (a * t1 + s) (in_units n pi u y0) (options_in_units mu a o) oo m (a * dt) (World st []) with
  | (w1, Ok A), (w2, Ok B) =>
      eo_t_vals B = map (fun t => a * t + s) (eo_t_vals A) /\ eo_y_vals B = map (in_units n pi u) (eo_y_vals A) /\
      eo_err_est B = map (in_units n pi u) (eo_err_est A) /\ eo_err B = eo_err A /\ eo_status B = eo_status A /\
      eo_accept_frac B = eo_accept_frac A /\ eo_attempt B = eo_attempt A /\ eo_reject_err B = eo_reject_err A /\ eo_fun_evals B = eo_fun_evals A /\
      w_st w2 = w_st w1 /\ w_out w2 = map (fun p => (a * fst p + s, in_units n pi u (snd p))) (w_out w1)
  | (w1, Err e1), (w2, Err e2) => e2 = e1 /\ w_st w2 = w_st w1 /\ w_out w2 = map (fun p => (a * fst p + s, in_units n pi u (snd p))) (w_out w1)
  | _, _ => False
  end.
Proof. exact (fun E L1 L2 X1 X2 St => @erk_units E L1 L2 X1 X2 St). Qed.
Print Assumptions C125_erk_units.
(** x' = cos(t) sin(y), y' = sin(x) in the variables (100 y, -100 x) and time 1000 t + 5; it has adaptive runs with every method that has an estimate *)
Example C125_example : reorders 2 un_pi /\ (forall q, (q < 2)%nat -> Rabs (un_u q) = 100) /\ restated 2 un_pi un_u 1000 5 (exr_fun un_f) (exr_fun un_g) /\
  in_units 2 un_pi un_u [1; 2] = [200; -100] /\
  forall m, In m explicit_embedded -> exists fuel w' sol,
    @erk_odeint R RScalar exact_LA (exr_E false) _ fuel (exr_fun un_f) 0 1 [1; 2] (exr_opts true) output_options_default m (1 / 4) (World tt []) = (w', Ok sol).
Proof.
  exact (conj (proj1 un_hypotheses) (conj (proj1 (proj2 un_hypotheses)) (conj (proj1 (proj2 (proj2 un_hypotheses))) (conj (proj2 (proj2 (proj2 un_hypotheses))) un_runs)))).
Qed.
