(** What irk::odeint records of the steps it attempted, and what one of its steps is over the reals. *)
From Coq Require Import Reals.
From Verif Require Import Model.Base Model.Scalar Model.LinAlg Model.Options Model.Coeffs Model.Newton Model.Irk.
From Verif Require Import Spec.Sums Spec.Trees Spec.RkSpec Spec.Observe Spec.NewtonSpec Spec.IrkSpec.

Section Records.
  Context {T : Type} `{Scalar T}.
  (** accepted steps 1, 2, ...; those whose number is a multiple of the output interval are recorded *)
  Definition shown (oo : output_options) (atts : list (iattempt T)) : list (iattempt T) := every (output_interval oo) (ended Accepted atts).
  (** The output holds the initial point and the shown steps, if outputs are to be stored at all. *)
  Definition records (t0 : T) (y0 : list T) (oo : output_options) (atts : list (iattempt T)) (sol : irk_output T) : Prop :=
    let kept := if store_in_vectors oo then shown oo atts else [] in
    io_t_vals sol = t0 :: map ia_end kept /\ io_y_vals sol = y0 :: map ia_yn kept /\
    io_err_est sol = vzeros (length y0) :: map ia_est kept /\ io_err sol = slit 0 0 :: map ia_err kept.
End Records.

Local Open Scope R_scope.
(** A step whose stage equations were solved: the stages [Y], the Jacobian [J] used in the error estimate, and the weights
    [d], [d2] of the stages in the solution and in the embedded solution. *)
Record solved_step {St} (F : functor R St) (f : R -> list R -> list R) (sc : solver_coeffs R) (Rtol xtol atol rtol : R)
  (x : iattempt R) (Y : list R) (J : mat R) (d d2 : nat -> R) : Prop := {
  ss_dim : (0 < length (ia_y x))%nat;
  ss_len : length Y = (length (sc_b sc) * length (ia_y x))%nat;
  ss_slopes : forall j, (j < length (sc_b sc))%nat ->
    length (stage_slope (length (ia_y x)) (vfun (sc_c sc)) f (ia_t x) (ia_dt x) (ia_y x) Y j) = length (ia_y x);
  ss_newton : exists Y0 J0 e,
    newton_reaches (length (ia_y x)) (length (sc_b sc)) (mfun (sc_A sc)) (vfun (sc_c sc)) f (ia_t x) (ia_dt x) (ia_y x) (jac_answers F (ia_t x) (ia_y x)) false Y0 /\
    jac_answers F (ia_t x) (ia_y x) J0 /\
    stage_newton (length (ia_y x)) (length (sc_b sc)) (mfun (sc_A sc)) (vfun (sc_c sc)) f (ia_t x) (ia_dt x) (ia_y x) J0 false Y0 Y e /\
    (defect_norm2 (length (ia_y x)) (length (sc_b sc)) (mfun (sc_A sc)) (vfun (sc_c sc)) f (ia_t x) (ia_dt x) (ia_y x) Y < Rtol * Rtol \/
     Rsum (length e) (fun i => ventry e i * ventry e i) < xtol * xtol);
  ss_jac : jac_answers F (ia_t x) (ia_y x) J;
  ss_weights : stage_weights (length (sc_b sc)) (mfun (sc_A sc)) (vfun (sc_b sc)) d;
  ss_weights2 : stage_weights (length (sc_b sc)) (mfun (sc_A sc)) (vfun (sc_b2 sc)) d2;
  ss_yn : length (ia_yn x) = length (ia_y x) /\
          forall p, (p < length (ia_y x))%nat -> ventry (ia_yn x) p = ventry (ia_y x) p + weighted (length (ia_y x)) (length (sc_b sc)) d Y p;
  ss_est : let diff p := weighted (length (ia_y x)) (length (sc_b sc)) d2 Y p - weighted (length (ia_y x)) (length (sc_b sc)) d Y p in
           exists e0 e, estimate_of (length (ia_y x)) (sc_gamma sc) (ia_dt x) J (f (ia_t x) (ia_y x)) diff e0 /\ ia_est x = map (Rmult (ia_dt x)) e /\
             (e = e0 \/ estimate_of (length (ia_y x)) (sc_gamma sc) (ia_dt x) J
                          (f (ia_t x) (vtab (length (ia_y x)) (fun p => ventry (ia_y x) p + ia_dt x * ventry e0 p))) diff e);
  ss_err : ia_err x = Rmax (1 / 100000000000000000) (rms_error (length (ia_y x)) atol rtol (ia_y x) (ia_yn x) (ia_est x)) }.

Section Refresh.
  Context {T : Type} `{Scalar T}.
  (** the same options with another refresh interval of the Jacobian *)
  Definition with_refresh (opts : irk_options T) (r : Z) : irk_options T :=
    IrkOptions (io_adaptive opts) (io_rel_tol opts) (io_abs_tol opts) (io_max_dt opts) (io_max_steps opts)
      (match io_newton opts with
       | Some n => Some (Options (o_tol n) (o_dx_delta n) (o_maxit n) (o_time_internals n) (o_max_step n) r (o_precondition n) (o_limit_step n))
       | None => None
       end).
  (** two outputs that agree in everything but jac_evals *)
  Definition same_but_jac_evals (a b : irk_output T) : Prop :=
    let c := io_count a in
    b = IrkOutput (io_status a) (io_t_vals a) (io_y_vals a) (io_stages a) (io_err_est a) (io_err a) (io_elapsed_time a) (io_accept_frac a)
          (Counters (ct_attempt c) (ct_reject_newton c) (ct_reject_err c) (ct_newton_success c) (ct_newton_incr_diverge c)
             (ct_newton_iter_error_too_large c) (ct_newton_maxit_exceed c) (ct_fun_evals c) (ct_jac_evals (io_count b))).
End Refresh.
