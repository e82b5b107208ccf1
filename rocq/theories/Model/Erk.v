(** erk.hpp: the explicit Runge-Kutta integrator. *)
From Verif Require Import Model.Base Model.Scalar Model.LinAlg Model.Enums Model.Options Model.Coeffs Model.Collocation Model.ErkCoeffs.
Local Open Scope sc_scope.
Local Open Scope mon_scope.

Section Erk.
  Context {T : Type} `{Scalar T} `{LinAlg T} `{Env T} {St : Type}.
  Local Notation W := (world T St).

  (** erk.hpp:93-112 with options.hpp:43-86.  [internal_solver], [newton_opts], [time_internals] and
      [extrapolate_stage] are not read by the explicit integrator; [out_interval] only controls progress messages
      on std::cerr, which are not modelled. *)
  Record erk_options := ErkOptions {
    eo_adaptive : bool;
    eo_rel_tol : T;
    eo_abs_tol : T;
    eo_max_dt : T;
    eo_max_steps : Z
  }.
  (** erk.cpp:224-228; options.hpp:50-58 *)
  Definition erk_default_options : erk_options :=
    ErkOptions true (slit 1 (-4)) (sZ 10 *. slit 1 (-4)) (sZ 0) (-1).

  (** erk.hpp:127-145 and output.hpp:31-36.  [elapsed_time] and [accept_frac] have no initialiser: [None] until
      assigned.  The size_t counters do not wrap in the model. *)
  Record erk_output := ErkOutput {
    eo_status : Z;
    eo_t_vals : list T;
    eo_y_vals : list (list T);
    eo_stages : list (list T);
    eo_err_est : list (list T);
    eo_err : list T;
    eo_elapsed_time : option T;
    eo_accept_frac : option T;
    eo_attempt : nat;
    eo_reject_err : nat;
    eo_fun_evals : nat
  }.

  (** The variables that live across iterations of the main loop, erk.hpp:283-327: t, y, dt, step, Ks, err, err_est,
      sol.  The arrays dts and errs are written but never read; they are left out. *)
  Record erk_state := ErkState {
    es_t : T;
    es_y : list T;
    es_dt : T;
    es_step : Z;
    es_Ks : mat T;
    es_err : T;
    es_err_est : list T;
    es_sol : erk_output
  }.

  Section Guts.
    Variables (F : functor T St) (t1 : T) (opts : erk_options) (sc : solver_coeffs T) (oo : output_options).

    (** erk.hpp:349-352: tmp = y + sum_{j<i} dt*A(i,j)*Ks.col(j) *)
    Definition erk_stage_arg (y : list T) (dt : T) (Ks : mat T) (i : nat) : res (list T) :=
      foldR (fun j tmp =>
               a <-- mget (sc_A sc) i j ;;
               k <-- mcol Ks j ;;
               vadd tmp (vscale (dt *. a) k)) (seq 0 i) y.

    (** erk.hpp:349-353: one stage; [eval_fun] (erk.hpp:319-322) counts the call first *)
    Definition erk_stage (t dt : T) (y : list T) (i : nat) (a : mat T * nat) : M W (mat T * nat) :=
      let '(Ks, evals) := a in
      tmp <- lift (erk_stage_arg y dt Ks i) ;;
      ci <- lift (vget (sc_c sc) i) ;;
      k <- in_world (f_fun F (t +. ci *. dt) tmp) ;;
      Ks' <- lift (mset_col Ks i k) ;;
      ret (Ks', S evals).

    (** erk.hpp:314-327: 1 for FSAL methods, 0 otherwise *)
    Definition stage_iter_start : nat := if sc_FSAL sc then 1 else 0.

    (** erk.hpp:348-354 *)
    Definition erk_stages_loop (t dt : T) (y : list T) (Ks : mat T) (evals : nat) : M W (mat T * nat) :=
      foldM (erk_stage t dt y) (seq stage_iter_start (length (sc_b sc) - stage_iter_start)) (Ks, evals).

    (** erk.hpp:367-379: err_tot *)
    Definition erk_err_tot (y y_n err_est : list T) : res T :=
      foldR (fun i tot =>
               erri <-- vget err_est i ;;
               yi <-- vget y i ;;
               yni <-- vget y_n i ;;
               let sci := eo_abs_tol opts +. eo_rel_tol opts *. smax (sabs yi) (sabs yni) in
               let add := erri /. sci in
               Ok (tot +. add *. add)) (seq 0 (length y)) (slit 0 0).

    (** erk.hpp:399-414: the next step size *)
    Definition erk_new_dt (min_order : Z) (err dt : T) : T :=
      let expt := sZ 1 /. (sZ 1 +. sZ min_order) in
      let err_inv := sZ 1 /. err in
      let scale_27 := spow err_inv expt in
      let new_dt := slit 9 (-1) *. dt *. smin (sZ 4) scale_27 in
      if eo_max_dt opts >?. sZ 0 then smin (eo_max_dt opts) new_dt else new_dt.

    (** erk.hpp:424-430: the file line *)
    Definition erk_write (t : T) (y_n : list T) : M W unit :=
      if write_to_file oo then
        match output_stream oo with
        | Some _ => write_line t y_n
        | None => fail EUB
        end
      else ret tt.

    (** erk.hpp:433-449, the part that records the step, for an accepted step; [fsal_hook] is erk.hpp:230-243 *)
    Definition erk_record (sol : erk_output) (t : T) (y_n err_est : list T) (Ks : mat T) (err : T) : erk_output :=
      ErkOutput (eo_status sol) (eo_t_vals sol ++ [t]) (eo_y_vals sol ++ [y_n]) (eo_stages sol ++ [vectorise Ks])
                (eo_err_est sol ++ [err_est]) (eo_err sol ++ [err]) (eo_elapsed_time sol) (eo_accept_frac sol)
                (eo_attempt sol) (eo_reject_err sol) (eo_fun_evals sol).
    Definition fsal_hook (Ks : mat T) : res (mat T) :=
      if sc_FSAL sc then
        k <-- mcol Ks (length (sc_b sc) - 1) ;; mset_col Ks 0 k
      else Ok Ks.
    Definition with_counts (sol : erk_output) (attempt reject evals : nat) : erk_output :=
      ErkOutput (eo_status sol) (eo_t_vals sol) (eo_y_vals sol) (eo_stages sol) (eo_err_est sol) (eo_err sol)
                (eo_elapsed_time sol) (eo_accept_frac sol) attempt reject evals.
    Definition with_status (sol : erk_output) (s : Z) : erk_output :=
      ErkOutput s (eo_t_vals sol) (eo_y_vals sol) (eo_stages sol) (eo_err_est sol) (eo_err sol)
                (eo_elapsed_time sol) (eo_accept_frac sol) (eo_attempt sol) (eo_reject_err sol) (eo_fun_evals sol).

    (** erk.hpp:363-415, the adaptive part: (err, err_est, rejected?, new_dt) *)
    Definition erk_control (min_order : Z) (dt : T) (Ks : mat T) (y y_n delta_y : list T) :
      M W (T * list T * bool * T) :=
      delta_alt <- lift (mv Ks (sc_b2 sc)) ;;
      d <- lift (vsub delta_alt delta_y) ;;
      let err_est := vscale dt d in
      err_tot <- lift (erk_err_tot y y_n err_est) ;;
      let err := ssqrt (err_tot /. sZ (Z.of_nat (length y))) in
      assert_ ndebug (err_tot >=?. slit 0 0) ;;;
      let err := if err <?. machine_precision then machine_precision else err in
      let rejected := err >=?. sZ 1 in
      ret (err, err_est, rejected, erk_new_dt min_order err dt).

    (** erk.hpp:329-458, the body of the main loop *)
    Definition erk_body (min_order : Z) (s : erk_state) : M W (erk_state + erk_output) :=
      let t := es_t s in
      let y := es_y s in
      let dt := if t +. es_dt s >?. t1 then t1 -. t else es_dt s in
      let sol := es_sol s in
      let attempt := S (eo_attempt sol) in
      if (0 <=? eo_max_steps opts)%Z && (eo_max_steps opts <? es_step s)%Z then
        ret (inr (with_status (with_counts sol attempt (eo_reject_err sol) (eo_fun_evals sol)) ERROR_MAX_STEPS_EXCEEDED))
      else
        '(Ks, evals) <- erk_stages_loop t dt y (es_Ks s) (eo_fun_evals sol) ;;
        delta_y <- lift (mv Ks (sc_b sc)) ;;
        y_n <- lift (vadd y (vscale dt delta_y)) ;;
        '(err, err_est, rejected, new_dt) <-
          (if eo_adaptive opts then erk_control min_order dt Ks y y_n delta_y
           else ret (es_err s, es_err_est s, false, dt)) ;;
        let sol1 := with_counts sol attempt (if rejected then S (eo_reject_err sol) else eo_reject_err sol) evals in
        erk_write t y_n ;;;
        if rejected then
          ret (inl (ErkState t y new_dt (es_step s) Ks err err_est sol1))
        else
          let t' := t +. dt in
          Ks' <- lift (fsal_hook Ks) ;;
          ret (inl (ErkState t' y_n (if eo_adaptive opts then new_dt else dt) (es_step s + 1) Ks' err err_est
                             (erk_record sol1 t' y_n err_est Ks err))).

    (** erk.hpp:263-463 *)
    Definition erk_guts (fuel : nat) (t0 : T) (y0 : list T) (dt : T) : M W erk_output :=
      let dt := if t0 +. dt >?. t1 then t1 -. t0 else dt in
      assert_ ndebug (dt >?. sZ 0) ;;;
      let Ns := length (sc_b sc) in
      let Neq := length y0 in
      let Ks := mtab Neq Ns (fun _ _ => junk) in
      let sol := ErkOutput SUCCESS [t0] [y0] [vectorise Ks] [vzeros Neq] [slit 0 0] None None 0 0 0 in
      min_order <- lift (match sc_order sc, sc_order2 sc with
                         | Some a, Some b => Ok (Z.min a b mod 2 ^ 64)%Z
                         | _, _ => Err EUB
                         end) ;;
      '(Ks, sol) <- (if sc_FSAL sc then
                       k <- in_world (f_fun F t0 y0) ;;
                       Ks' <- lift (mset_col Ks 0 k) ;;
                       ret (Ks', with_counts sol 0 0 1)
                     else ret (Ks, sol)) ;;
      r <- while (fun s => es_t s <?. t1) (erk_body min_order) fuel
                 (ErkState t0 y0 dt 0 Ks (slit 0 0) (vzeros Neq) sol) ;;
      match r with
      | inr sol => ret sol
      | inl s =>
          let sol := es_sol s in
          ret (ErkOutput (eo_status sol) (eo_t_vals sol) (eo_y_vals sol) (eo_stages sol) (eo_err_est sol) (eo_err sol)
                         (Some clock) (Some (sZ (es_step s) /. sZ (Z.of_nat (eo_attempt sol))))
                         (eo_attempt sol) (eo_reject_err sol) (eo_fun_evals sol))
      end.
  End Guts.

  (** erk.hpp:480-495; the message about the disabled step size control is not modelled *)
  Definition erk_odeint (fuel : nat) (F : functor T St) (t0 t1 : T) (y0 : list T) (opts : erk_options)
    (oo : output_options) (method : Z) (dt : T) : M W erk_output :=
    sc <- lift (erk_get_coefficients method) ;;
    let opts := if eo_adaptive opts && (length (sc_b2 sc) =? 0)%nat
                then ErkOptions false (eo_rel_tol opts) (eo_abs_tol opts) (eo_max_dt opts) (eo_max_steps opts)
                else opts in
    assert_ ndebug (erk_verify_solver_coeffs sc) ;;;
    erk_guts F t1 opts sc oo fuel t0 y0 dt.

  (** erk.hpp:511-517, with the default arguments of erk.hpp:483 *)
  Definition erk_odeint_default (fuel : nat) (F : functor T St) (t0 t1 : T) (y0 : list T) : M W erk_output :=
    erk_odeint fuel F t0 t1 y0 erk_default_options output_options_default DORMAND_PRINCE_54 (slit 1 (-6)).
End Erk.
Arguments erk_options : clear implicits.
Arguments erk_output : clear implicits.
Arguments erk_state : clear implicits.
