(** irk.hpp, irk.cpp: the implicit Runge-Kutta integrator. *)
From Verif Require Import Model.Base Model.Scalar Model.LinAlg Model.Newton Model.Enums Model.Options Model.Coeffs Model.Collocation Model.IrkCoeffs.
Local Open Scope sc_scope.
Local Open Scope mon_scope.

(** Armadillo [v.subvec(i0, i0 + n - 1)] with unsigned indices: throws unless the range is non-empty and inside [v]
    (for n = 0 and i0 = 0, the only case that occurs, the last index wraps around to the largest size_t). *)
Definition subvec {T} (v : list T) (i0 n : nat) : res (list T) :=
  if (0 <? n)%nat && (i0 + n <=? length v)%nat then Ok (firstn n (skipn i0 v)) else Err (EThrow ELogic).
(** [v.subvec(i0, i0 + n - 1) = x] *)
Definition set_subvec {T} (v : list T) (i0 n : nat) (x : list T) : res (list T) :=
  if (0 <? n)%nat && (i0 + n <=? length v)%nat && (length x =? n)%nat
  then Ok (firstn i0 v ++ x ++ skipn (i0 + n) v) else Err (EThrow ELogic).
(** [int] addition: overflow is undefined behaviour. *)
Definition int_add (a b : Z) : res Z :=
  if (- 2 ^ 31 <=? a + b)%Z && (a + b <? 2 ^ 31)%Z then Ok (a + b)%Z else Err EUB.

Section Irk.
  Context {T : Type} `{Scalar T} `{LinAlg T} `{Env T} {St : Type}.
  Local Notation W := (world T St).

  (** irk.hpp:95-125 with options.hpp:40-86.  Left out because the integrator never reads them: [internal_solver],
      [use_newton_iters_adaptive_step], [verbose_newton]; because they only control messages and timings:
      [out_interval], [time_internals]; because the code under it is empty (irk.hpp:857-859): [extrapolate_stage].
      [newton_opts] is a pointer, [None] when null. *)
  Record irk_options := IrkOptions {
    io_adaptive : bool;
    io_rel_tol : T;
    io_abs_tol : T;
    io_max_dt : T;
    io_max_steps : Z;
    io_newton : option (options T)
  }.
  (** irk.cpp:692-696; irk.hpp:103-107; options.hpp:50-58 *)
  Definition irk_default_options : irk_options :=
    IrkOptions true (slit 1 (-4)) (sZ 10 *. slit 1 (-4)) (sZ 0) (-1) None.

  (** irk.hpp:142-154, struct counters.  The size_t counters do not wrap in the model. *)
  Record counters := Counters {
    ct_attempt : nat; ct_reject_newton : nat; ct_reject_err : nat;
    ct_newton_success : nat; ct_newton_incr_diverge : nat; ct_newton_iter_error_too_large : nat; ct_newton_maxit_exceed : nat;
    ct_fun_evals : nat; ct_jac_evals : nat }.
  (** irk.hpp:140-163 and output.hpp:31-36, struct rk_output.  [elapsed_time] and [accept_frac] have no initialiser: [None]
      until assigned. *)
  Record irk_output := IrkOutput {
    io_status : Z;
    io_t_vals : list T;
    io_y_vals : list (list T);
    io_stages : list (list T);
    io_err_est : list (list T);
    io_err : list T;
    io_elapsed_time : option T;
    io_accept_frac : option T;
    io_count : counters
  }.

  (** What newton_solve_stages hands back: the returned status, the out-parameters Y, J, stats.iters, stats.res and the
      two counters. *)
  Record stage_result := StageResult {
    sr_status : Z; sr_Y : list T; sr_J : mat T; sr_iters : Z; sr_res : T; sr_fun : nat; sr_jac : nat }.

  Section Stages.
    Variables (F : functor T St) (y : list T) (t dt : T) (sc : solver_coeffs T).

    (** irk.hpp:366-386.  [vec_type F(Y.size())] starts uninitialised.  The scalar [dt] multiplies the product (Armadillo
        passes it to gemv as a factor of the result). *)
    Definition construct_R (Y : list T) (I_neq : mat T) : M W (list T) :=
      let Neq := length y in
      Fv <- foldM (fun i Fv =>
                     Yi <- lift (subvec Y (Neq * i) Neq) ;;
                     ci <- lift (vget (sc_c sc) i) ;;
                     arg <- lift (vadd y Yi) ;;
                     v <- in_world (f_fun F (t +. ci *. dt) arg) ;;
                     lift (set_subvec Fv (Neq * i) Neq v))
                  (seq 0 (length (sc_b sc))) (repeat junk (length Y)) ;;
      AF <- lift (mv (kron (sc_A sc) I_neq) Fv) ;;
      lift (vsub Y (vscale dt AF)).

    (** irk.hpp:422-436, the closure refresh_jacobi_matrix: J, J_Y and L, U, P.  The call of [arma::lu] is the argument of an
        assert, so it is not made when compiled with NDEBUG. *)
    Definition refresh_jacobi_matrix (plu : bool) (LUP : mat T * mat T * mat T) : M W (mat T * mat T * (mat T * mat T * mat T)) :=
      let NN := (length (sc_b sc) * length y)%nat in
      J <- in_world (f_jac F t y) ;;
      J_Y <- lift (msub (eye NN) (mscale dt (kron (sc_A sc) J))) ;;
      LUP <- (if plu && negb ndebug then
                match la_lu J_Y with
                | Some _ => ret (lu_or_reset J_Y)
                | None => fail EAbort
                end
              else ret LUP) ;;
      ret (J, J_Y, LUP).

    (** irk.hpp:458-488: the variables of the loop; [sg_done] is set when a break leaves the loop *)
    Record stage_state := StageState {
      sg_iters : Z; sg_Y : list T; sg_R : list T; sg_Rnorm2 : T; sg_step : T; sg_J : mat T; sg_J_Y : mat T;
      sg_LUP : mat T * mat T * mat T; sg_done : bool; sg_fun : nat; sg_jac : nat }.

    (** irk.hpp:459-465: the increment *)
    Definition stage_increment (plu : bool) (J_Y : mat T) (LUP : mat T * mat T * mat T) (R : list T) : res (list T) :=
      if plu then
        let '(L, U, P) := LUP in
        PR <-- mv P R ;;
        tmp <-- trisolve false (mneg L) PR ;;
        trisolve true U tmp
      else
        x <-- solve J_Y R ;; Ok (vneg x).

    (** irk.hpp:458-488, the body of the loop *)
    Definition stage_body (adaptive plu : bool) (refresh_jac : Z) (xtol2 Rtol2 : T) (s : stage_state) :
      M W (stage_state + Empty_set) :=
      dY <- lift (stage_increment plu (sg_J_Y s) (sg_LUP s) (sg_R s)) ;;
      xnorm2 <- lift (dot dY dY) ;;
      Y <- lift (vadd (sg_Y s) (vscale (sg_step s) dY)) ;;
      R <- construct_R Y (eye (length y)) ;;
      let evals := (sg_fun s + length (sc_b sc))%nat in
      Rnorm2 <- lift (dot R R) ;;
      if (Rnorm2 <?. Rtol2) || (xnorm2 <?. xtol2) then
        ret (inl (StageState (sg_iters s) Y R Rnorm2 (sg_step s) (sg_J s) (sg_J_Y s) (sg_LUP s) true evals (sg_jac s)))
      else
        let step := if adaptive then sZ 1 /. ssqrt (sZ 1 +. Rnorm2) else sg_step s in
        if (refresh_jac =? 0)%Z then fail EUB
        else if (Z.rem (sg_iters s) refresh_jac =? 0)%Z then
          '(J, J_Y, LUP) <- refresh_jacobi_matrix plu (sg_LUP s) ;;
          ret (inl (StageState (sg_iters s + 1) Y R Rnorm2 step J J_Y LUP false evals (S (sg_jac s))))
        else
          ret (inl (StageState (sg_iters s + 1) Y R Rnorm2 step (sg_J s) (sg_J_Y s) (sg_LUP s) false evals (sg_jac s))).

    (** irk.hpp:398-493; [adaptive] and [plu] are the template parameters adaptive_step and PLU_decomposition.  The loop
        makes at most [maxit] iterations. *)
    Definition newton_solve_stages (adaptive plu : bool) (maxit refresh_jac : Z) (xtol Rtol : T) (fun_evals jac_evals : nat) :
      M W stage_result :=
      let NN := (length (sc_b sc) * length y)%nat in
      let Y := vzeros NN in
      '(J, J_Y, LUP) <- refresh_jacobi_matrix plu (mat_empty, mat_empty, mat_empty) ;;
      R <- construct_R Y (eye (length y)) ;;
      Rnorm2 <- lift (dot R R) ;;
      let step := if adaptive then sZ 1 /. ssqrt (sZ 1 +. Rnorm2) else sZ 1 in
      r <- while (fun s => negb (sg_done s) && (sg_iters s <? maxit)%Z)
             (stage_body adaptive plu refresh_jac (xtol *. xtol) (Rtol *. Rtol)) (Z.to_nat maxit)
             (StageState 1 Y R Rnorm2 step J J_Y LUP false (fun_evals + length (sc_b sc)) (S jac_evals)) ;;
      match r with
      | inl s => ret (StageResult (if sg_done s then Newton.SUCCESS else MAXIT_EXCEEDED) (sg_Y s) (sg_J s) (sg_iters s)
                                  (sg_Rnorm2 s) (sg_fun s) (sg_jac s))
      | inr x => match x with end
      end.
  End Stages.

  (** The variables that live across iterations of the main loop, irk.hpp:544-601: t, y, dt, step, alternative_error_formula,
      newton_maxit, last_maxit_relax_step, dts[0], dts[1], errs[0], sol.  The other entries of dts and errs are overwritten
      before they are read; K_n, K_np and yo are never assigned or never read. *)
  Record irk_state := IrkState {
    is_t : T; is_y : list T; is_dt : T; is_step : Z; is_alt : bool; is_maxit : Z; is_relax : Z; is_dts0 : T; is_dts1 : T; is_err0 : T;
    is_sol : irk_output }.

  Definition with_count (sol : irk_output) (c : counters) : irk_output :=
    IrkOutput (io_status sol) (io_t_vals sol) (io_y_vals sol) (io_stages sol) (io_err_est sol) (io_err sol)
              (io_elapsed_time sol) (io_accept_frac sol) c.
  Definition irk_with_status (sol : irk_output) (s : Z) : irk_output :=
    IrkOutput s (io_t_vals sol) (io_y_vals sol) (io_stages sol) (io_err_est sol) (io_err sol)
              (io_elapsed_time sol) (io_accept_frac sol) (io_count sol).

  Section Guts.
    Variables (F : functor T St) (t1 : T) (opts : irk_options) (sc : solver_coeffs T) (oo : output_options).
    Variables (nopts : options T) (min_order : Z) (d_weights d2_weights : list T).

    (** irk.hpp:691-731: (y_n, err_est, number of calls of fun).  [delta_alt] stays empty without adaptivity. *)
    Definition irk_estimate (t dt : T) (y Y : list T) (J : mat T) (alt : bool) : M W (list T * list T * nat) :=
      let Neq := length y in
      let gam := sc_gamma sc *. dt in
      let YYs := reshape Y Neq (length (sc_b sc)) in
      delta_y <- lift (mv YYs d_weights) ;;
      delta_alt <- (if io_adaptive opts then lift (mv YYs d2_weights) else ret []) ;;
      f0 <- in_world (f_fun F t y) ;;
      dy_alt <- lift (vadd (vscale gam f0) delta_alt) ;;
      y_n <- lift (vadd y delta_y) ;;
      yp <- lift (vadd y dy_alt) ;;
      delta_delta <- lift (vsub dy_alt delta_y) ;;
      solve_tmp <- lift (msub (eye Neq) (mscale gam J)) ;;
      e <- lift (solve solve_tmp delta_delta) ;;
      let err_est := vscale dt e in
      if alt then
        arg <- lift (vadd y err_est) ;;
        f1 <- in_world (f_fun F t arg) ;;
        dy_alt_alt <- lift (vadd (vscale gam f1) delta_alt) ;;
        err_alt <- lift (vsub dy_alt_alt delta_y) ;;
        e <- lift (solve solve_tmp err_alt) ;;
        ret (y_n, vscale dt e, 2%nat)
      else ret (y_n, err_est, 1%nat).

    (** irk.hpp:733-746: err_tot and n *)
    Definition irk_err_tot (y y_n err_est : list T) : res T :=
      foldR (fun i tot =>
               erri <-- vget err_est i ;;
               yi <-- vget y i ;;
               yni <-- vget y_n i ;;
               let sci := io_abs_tol opts +. io_rel_tol opts *. smax (sabs yi) (sabs yni) in
               let add := erri /. sci in
               Ok (tot +. add *. add)) (seq 0 (length err_est)) (slit 0 0).
    Definition count_up (n : nat) : T := fold_left (fun a _ => a +. slit 1 0) (seq 0 n) (slit 0 0).

    (** irk.hpp:771-801: the next step size; [newton_maxit + newton_stats.iters] is an addition of ints *)
    Definition irk_new_dt (maxit iters : Z) (err err1 dts0 dts1 dt : T) : res T :=
      mi <-- int_add maxit iters ;;
      let fac := slit 9 (-1) *. (sZ maxit +. sZ 1) /. sZ mi in
      let expt := sZ 1 /. (sZ 1 +. sZ min_order) in
      let err_inv := sZ 1 /. err in
      let scale_27 := spow err_inv expt in
      let dt_rat := dts0 /. dts1 in
      let err_frac := if (err1 ==?. sZ 0) || (err ==?. sZ 0) then sZ 1 else err1 /. err in
      let err_rat := spow err_frac expt in
      let scale_28 := scale_27 *. dt_rat *. err_rat in
      let min_scales := smin scale_27 scale_28 in
      let new_dt := fac *. dt *. smin (sZ 8) min_scales in
      Ok (if io_max_dt opts >?. sZ 0 then smin (io_max_dt opts) new_dt else new_dt).

    (** irk.hpp:815-845: recording an accepted step (its number is [step]); the stages pushed are K_np, always zero *)
    Definition irk_record (sol : irk_output) (step : Z) (t : T) (y_n err_est : list T) (err : T) : M W irk_output :=
      if (output_interval oo =? 0)%Z then fail EUB
      else if (Z.rem step (output_interval oo) =? 0)%Z then
        let sol := if store_in_vectors oo then
                     IrkOutput (io_status sol) (io_t_vals sol ++ [t]) (io_y_vals sol ++ [y_n])
                               (io_stages sol ++ [vzeros (length y_n * length (sc_b sc))]) (io_err_est sol ++ [err_est])
                               (io_err sol ++ [err]) (io_elapsed_time sol) (io_accept_frac sol) (io_count sol)
                   else sol in
        (if write_to_file oo then
           match output_stream oo with Some _ => write_line t y_n | None => fail EUB end
         else ret tt) ;;;
        ret sol
      else ret sol.

    (** irk.hpp:604-860, the body of the main loop *)
    Definition irk_body (s : irk_state) : M W (irk_state + irk_output) :=
      let t := is_t s in
      let y := is_y s in
      let dt := if t +. is_dt s >?. t1 then t1 -. t else is_dt s in
      let c := io_count (is_sol s) in
      let attempt := S (ct_attempt c) in
      if (0 <=? io_max_steps opts)%Z && (io_max_steps opts <? is_step s)%Z then
        ret (inr (irk_with_status (with_count (is_sol s)
               (Counters attempt (ct_reject_newton c) (ct_reject_err c) (ct_newton_success c) (ct_newton_incr_diverge c)
                  (ct_newton_iter_error_too_large c) (ct_newton_maxit_exceed c) (ct_fun_evals c) (ct_jac_evals c)))
               ERROR_MAX_STEPS_EXCEEDED))
      else
        sr <- newton_solve_stages F y t dt sc false true (is_maxit s) (o_refresh_jac nopts) (o_dx_delta nopts) (o_tol nopts)
                (ct_fun_evals c) (ct_jac_evals c) ;;
        if negb (sr_status sr =? Newton.SUCCESS)%Z then
          if negb (io_adaptive opts) then
            ret (inr (irk_with_status (with_count (is_sol s)
                   (Counters attempt (ct_reject_newton c) (ct_reject_err c) (ct_newton_success c) (ct_newton_incr_diverge c)
                      (ct_newton_iter_error_too_large c) (ct_newton_maxit_exceed c) (sr_fun sr) (sr_jac sr)))
                   GENERAL_ERROR))
          else
            '(maxit, relax) <- (if (is_step s - is_relax s >? 15)%Z
                                then m <- lift (int_add (is_maxit s) (o_maxit nopts)) ;; ret (m, is_step s)
                                else ret (is_maxit s, is_relax s)) ;;
            let is k := if (sr_status sr =? k)%Z then 1%nat else 0%nat in
            ret (inl (IrkState t y (dt *. slit 7 (-1)) (is_step s) (is_alt s) maxit relax (is_dts0 s) (is_dts1 s) (is_err0 s)
                   (with_count (is_sol s)
                     (Counters attempt (S (ct_reject_newton c)) (ct_reject_err c) (ct_newton_success c)
                        (ct_newton_incr_diverge c + is INCREMENT_DIVERGE)
                        (ct_newton_iter_error_too_large c + is ITERATION_ERROR_TOO_LARGE)
                        (ct_newton_maxit_exceed c + is MAXIT_EXCEEDED) (sr_fun sr) (sr_jac sr)))))
        else
          '(y_n, err_est, calls) <- irk_estimate t dt y (sr_Y sr) (sr_J sr) (is_alt s) ;;
          err_tot <- lift (irk_err_tot y y_n err_est) ;;
          assert_ ndebug (err_tot >=?. slit 0 0) ;;;
          let err := ssqrt (err_tot /. count_up (length err_est)) in
          let err := if err <?. machine_precision then machine_precision else err in
          let rejected := io_adaptive opts && (err >?. sZ 1) in
          new_dt <- lift (irk_new_dt (is_maxit s) (sr_iters sr) err (is_err0 s) (is_dts0 s) (is_dts1 s) dt) ;;
          let sol := with_count (is_sol s)
                       (Counters attempt (ct_reject_newton c) (if rejected then S (ct_reject_err c) else ct_reject_err c)
                          (S (ct_newton_success c)) (ct_newton_incr_diverge c) (ct_newton_iter_error_too_large c)
                          (ct_newton_maxit_exceed c) (sr_fun sr + calls) (sr_jac sr)) in
          let next_dt := if io_adaptive opts then new_dt else dt in
          if rejected then
            ret (inl (IrkState t y next_dt (is_step s) true (is_maxit s) (is_relax s) next_dt (is_dts0 s) err sol))
          else
            sol <- irk_record sol (is_step s + 1) (t +. dt) y_n err_est err ;;
            ret (inl (IrkState (t +. dt) y_n next_dt (is_step s + 1) false (is_maxit s) (is_relax s) next_dt (is_dts0 s) err sol)).
  End Guts.

  (** irk.hpp:509-869 *)
  Definition irk_guts (fuel : nat) (F : functor T St) (t0 t1 : T) (y0 : list T) (opts : irk_options) (dt : T)
    (sc : solver_coeffs T) (oo : output_options) : M W irk_output :=
    let dt := if t0 +. dt >?. t1 then t1 -. t0 else dt in
    assert_ ndebug (match io_newton opts with Some _ => true | None => false end) ;;;
    assert_ ndebug (dt >?. sZ 0) ;;;
    nopts <- lift (match io_newton opts with Some o => Ok o | None => Err EUB end) ;;
    let Neq := length y0 in
    let N := (Neq * length (sc_b sc))%nat in
    let sol := IrkOutput SUCCESS [t0] [y0] [vzeros N] [vzeros Neq] [slit 0 0] None None (Counters 0 0 0 0 0 0 0 0 0) in
    min_order <- lift (match sc_order sc, sc_order2 sc with
                       | Some a, Some b => Ok (Z.min a b mod 2 ^ 64)%Z
                       | _, _ => Err EUB
                       end) ;;
    Ai <- lift (inv (sc_A sc)) ;;
    d_weights <- lift (mv (transpose (sZ 0) Ai) (sc_b sc)) ;;
    d2_weights <- lift (mv (transpose (sZ 0) Ai) (sc_b2 sc)) ;;
    r <- while (fun s => is_t s <?. t1) (irk_body F t1 opts sc oo nopts min_order d_weights d2_weights) fuel
           (IrkState t0 y0 dt 0 true (o_maxit nopts) 0 dt dt (slit 9 (-1)) sol) ;;
    match r with
    | inr sol => ret sol
    | inl s =>
        let sol := is_sol s in
        ret (IrkOutput (io_status sol) (io_t_vals sol) (io_y_vals sol) (io_stages sol) (io_err_est sol) (io_err sol)
                       (Some clock) (Some (sZ (is_step s) /. sZ (Z.of_nat (ct_attempt (io_count sol))))) (io_count sol))
    end.

  (** irk.hpp:884-898; the message about the disabled step size control is not modelled *)
  Definition irk_odeint (fuel : nat) (F : functor T St) (t0 t1 : T) (y0 : list T) (opts : irk_options) (oo : output_options)
    (method : Z) (dt : T) : M W irk_output :=
    sc <- lift (irk_get_coefficients method) ;;
    let opts := if io_adaptive opts && (length (sc_b2 sc) =? 0)%nat
                then IrkOptions false (io_rel_tol opts) (io_abs_tol opts) (io_max_dt opts) (io_max_steps opts) (io_newton opts)
                else opts in
    assert_ ndebug (irk_verify_solver_coeffs sc) ;;;
    irk_guts fuel F t0 t1 y0 opts dt sc oo.

  (** irk.hpp:915-926, with the default arguments of irk.hpp:886 *)
  Definition irk_odeint_default (fuel : nat) (F : functor T St) (t0 t1 : T) (y0 : list T) : M W irk_output :=
    let s := irk_default_options in
    let n := options_default in
    let n := Options (slit 1 (-1) *. smin (io_abs_tol s) (io_rel_tol s)) (o_dx_delta n) (o_maxit n) (o_time_internals n)
                     (o_max_step n) 25 (o_precondition n) (o_limit_step n) in
    irk_odeint fuel F t0 t1 y0 (IrkOptions (io_adaptive s) (io_rel_tol s) (io_abs_tol s) (io_max_dt s) (io_max_steps s) (Some n))
               output_options_default RADAU_IIA_53 (slit 1 (-6)).

  (** irk.cpp:750-783.  Reading a time or fraction that was never assigned is undefined behaviour. *)
  Definition merge_rk_output (sol1 sol2 : irk_output) : res irk_output :=
    match io_elapsed_time sol1, io_elapsed_time sol2, io_accept_frac sol1, io_accept_frac sol2 with
    | Some e1, Some e2, Some f1, Some f2 =>
        let steps1 := sZ (Z.of_nat (length (io_t_vals sol1))) in
        let steps2 := sZ (Z.of_nat (length (io_t_vals sol2))) in
        let c1 := io_count sol1 in
        let c2 := io_count sol2 in
        Ok (IrkOutput (Z.lor (io_status sol1) (io_status sol2))
              (io_t_vals sol1 ++ io_t_vals sol2) (io_y_vals sol1 ++ io_y_vals sol2) (io_stages sol1 ++ io_stages sol2)
              (io_err_est sol1 ++ io_err_est sol2) (io_err sol1 ++ io_err sol2) (Some (e1 +. e2))
              (Some ((steps1 *. f1 +. steps2 *. f2) /. (steps1 +. steps2)))
              (Counters (ct_attempt c1 + ct_attempt c2) (ct_reject_newton c1 + ct_reject_newton c2)
                 (ct_reject_err c1 + ct_reject_err c2) (ct_newton_success c1 + ct_newton_success c2)
                 (ct_newton_incr_diverge c1 + ct_newton_incr_diverge c2)
                 (ct_newton_iter_error_too_large c1 + ct_newton_iter_error_too_large c2)
                 (ct_newton_maxit_exceed c1 + ct_newton_maxit_exceed c2) (ct_fun_evals c1) (ct_jac_evals c1)))
    | _, _, _, _ => Err EUB
    end.
End Irk.
Arguments irk_options : clear implicits.
Arguments irk_output : clear implicits.
Arguments irk_state : clear implicits.
Arguments stage_result : clear implicits.
Arguments stage_state : clear implicits.
