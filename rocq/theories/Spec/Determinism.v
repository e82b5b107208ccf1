(** What two runs of the same call have in common. *)
From Verif Require Import Model.Base Model.Scalar Model.LinAlg Model.Erk Model.Irk.

(** Both end in the same way and leave the same world; if they return, the results are related by [R]. *)
Definition same_outcome {W A B} (R : A -> B -> Prop) (p : W * res A) (q : W * res B) : Prop :=
  fst p = fst q /\
  match snd p, snd q with
  | Ok a, Ok b => R a b
  | Err e1, Err e2 => e1 = e2
  | _, _ => False
  end.

(** Two results of erk::odeint that agree in everything but the elapsed time and the stages recorded with the initial value,
    which the code takes from uninitialised memory. *)
Definition erk_agree {T} (a b : erk_output T) : Prop :=
  eo_status a = eo_status b /\ eo_t_vals a = eo_t_vals b /\ eo_y_vals a = eo_y_vals b /\
  length (eo_stages a) = length (eo_stages b) /\ tl (eo_stages a) = tl (eo_stages b) /\
  eo_err_est a = eo_err_est b /\ eo_err a = eo_err b /\ eo_accept_frac a = eo_accept_frac b /\
  eo_attempt a = eo_attempt b /\ eo_reject_err a = eo_reject_err b /\ eo_fun_evals a = eo_fun_evals b.
(** Two results of irk::odeint that agree in everything but the elapsed time *)
Definition irk_agree {T} (a b : irk_output T) : Prop :=
  io_status a = io_status b /\ io_t_vals a = io_t_vals b /\ io_y_vals a = io_y_vals b /\ io_stages a = io_stages b /\
  io_err_est a = io_err_est b /\ io_err a = io_err b /\ io_accept_frac a = io_accept_frac b /\ io_count a = io_count b.
