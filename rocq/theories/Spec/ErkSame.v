(** Two results of the explicit integrator that agree in everything but the number of right-hand side calls. *)
From Coq Require Import Reals.
From Verif Require Import Model.Base Model.Scalar Model.LinAlg Model.Coeffs Model.Erk.
Definition same_but_evals (a b : erk_output R) : Prop :=
  eo_t_vals a = eo_t_vals b /\ eo_y_vals a = eo_y_vals b /\ eo_err a = eo_err b /\ eo_err_est a = eo_err_est b /\ eo_stages a = eo_stages b /\
  eo_status a = eo_status b /\ eo_attempt a = eo_attempt b /\ eo_reject_err a = eo_reject_err b /\
  eo_elapsed_time a = eo_elapsed_time b /\ eo_accept_frac a = eo_accept_frac b.
