(** multistep.hpp: Adams-Bashforth and BDF methods. *)
From Verif Require Import Model.Base Model.Scalar Model.LinAlg Model.CyclicBuffer Model.Newton Model.Enums Model.Options Model.IrkCoeffs Model.Irk.
Local Open Scope sc_scope.
Local Open Scope mon_scope.

Section Multistep.
  Context {T : Type} `{Scalar T} `{LinAlg T} `{Env T} {St : Type}.
  Local Notation W := (world T St).

  (** output.hpp:31-36, multistep.hpp:56: basic_output and multistep_output *)
  Record basic_output := BasicOutput { bo_status : Z; bo_t_vals : list T; bo_y_vals : list (list T) }.

  (** A literal fraction [a.0/b.0]. *)
  Definition frac (a b : Z) : T := slit (10 * a) (-1) /. slit (10 * b) (-1).
  (** A literal fraction [a/b.0] with an [int] numerator. *)
  Definition ifrac (a b : Z) : T := sZ a /. slit (10 * b) (-1).

  (** multistep.hpp:71-77, the table [C] (the trailing zeros of each row are left out: they are never read) *)
  Definition ab_coeffs : list (list T) :=
    [ [slit 10 (-1)];
      [slit 15 (-1); -. slit 5 (-1)];
      [frac 23 12; frac (-16) 12; frac 5 12];
      [frac 55 24; frac (-59) 24; frac 37 24; frac (-9) 24];
      [frac 1901 720; frac (-2774) 720; frac 2616 720; frac (-1274) 720; frac 251 720] ].

  (** multistep.hpp:79-105: the combination C[k-1][0]*func.fun(t, history[0]) + ..., terms [0..k-1].  C++ leaves the order of the
      calls open; the model makes them from left to right. *)
  Definition ab_term (F : functor T St) (t : T) (history : cbuf (list T)) (c : T) (i : Z) : M W (list T) :=
    h <- lift (cb_get ndebug history i) ;;
    v <- in_world (f_fun F t h) ;;
    ret (vscale c v).
  Definition ab_sum (F : functor T St) (t : T) (history : cbuf (list T)) (cs : list T) : M W (list T) :=
    match cs with
    | [] => ret []
    | c0 :: cs' =>
        v0 <- ab_term F t history c0 0 ;;
        foldM (fun p acc => v <- ab_term F t history (snd p) (Z.of_nat (fst p)) ;; lift (vadd acc v))
              (combine (seq 1 (length cs')) cs') v0
    end.
  (** multistep.hpp:65-111, adams_bashforth_step: the new Y.  Order 1 does not multiply by C[0][0]. *)
  Definition adams_bashforth_step (F : functor T St) (order : Z) (Y : list T) (t dt : T) (history : cbuf (list T)) : M W (list T) :=
    if (order =? 1)%Z then
      h <- lift (cb_get ndebug history 0) ;;
      v <- in_world (f_fun F t h) ;;
      lift (vadd Y (vscale dt v))
    else if (2 <=? order)%Z && (order <=? 5)%Z then
      v <- ab_sum F t history (nth (Z.to_nat order - 1) ab_coeffs []) ;;
      lift (vadd Y (vscale dt v))
    else assert_ ndebug false ;;; ret Y.

  (** multistep.hpp:119-132: the options of the starting integrator *)
  Definition bootstrap_options : irk_options T :=
    let d := irk_default_options in
    IrkOptions (io_adaptive d) (slit 1 (-10)) (slit 1 (-9)) (io_max_dt d) (io_max_steps d) (Some options_default).
  Definition bootstrap_output : output_options :=
    let d := output_options_default in OutputOptions NO_OUTPUT (output_interval d) (output_stream d).

  (** multistep.hpp:115-144, bootstrap_history: (times, values); [fuel] bounds each run of irk::odeint.  The status of the
      returned basic_output is never assigned nor read. *)
  Definition bootstrap_history (fuel : nat) (F : functor T St) (order : Z) (y : list T) (t dt : T) : M W (list T * list (list T)) :=
    r <- foldM (fun i s =>
             let '(t, ts, ys) := s in
             yi <- lift (match nth_error ys (i - 1) with Some v => Ok v | None => Err EUB end) ;;
             sol <- irk_odeint fuel F t (t +. dt) yi bootstrap_options bootstrap_output LOBATTO_IIIC_85 (slit 1 (-6)) ;;
             yn <- lift (match nth_error (io_y_vals sol) (length (io_t_vals sol) - 1) with Some v => Ok v | None => Err EUB end) ;;
             let t := t +. dt in
             ret (t, ts ++ [t], ys ++ [yn]))
         (seq 1 (Z.to_nat order - 1)) (t, [t], [y]) ;;
    ret (snd (fst r), snd r).

  (** multistep.hpp:178-185 and 263-270: copying the starting values; [t] and [y] are the last ones *)
  Definition load_history (hist : list T * list (list T)) (history : cbuf (list T)) : res (T * list T * cbuf (list T)) :=
    h <-- cb_pushes history (snd hist) ;;
    match nth_error (fst hist) (length (fst hist) - 1), nth_error (snd hist) (length (fst hist) - 1) with
    | Some t, Some y => Ok (t, y, h)
    | _, _ => Err EUB
    end.

  (** multistep.hpp:163-195 and 206-345: the variables of the main loops *)
  Record ms_state := MsState { ms_t : T; ms_y : list T; ms_hist : cbuf (list T); ms_ts : list T; ms_ys : list (list T); ms_newton : status T }.

  (** multistep.hpp:187-194 *)
  Definition ab_body (F : functor T St) (order : Z) (dt : T) (s : ms_state) : M W (ms_state + basic_output) :=
    y <- adams_bashforth_step F order (ms_y s) (ms_t s) dt (ms_hist s) ;;
    h <- lift (cb_push (ms_hist s) y) ;;
    let t := ms_t s +. dt in
    ret (inl (MsState t y h (ms_ts s ++ [t]) (ms_ys s ++ [y]) (ms_newton s))).

  (** multistep.hpp:147-197, adams_bashforth *)
  Definition adams_bashforth (fuel : nat) (F : functor T St) (t0 t1 : T) (y0 : list T) (order : Z) (dt : T) : M W basic_output :=
    let dt := if t0 +. dt >?. t1 then t1 -. t0 else dt in
    assert_ ndebug (dt >?. sZ 0) ;;;
    history <- lift (cb_make [] order) ;;
    hist <- bootstrap_history fuel F order y0 t0 dt ;;
    '(t, y, h) <- lift (load_history hist history) ;;
    r <- while (fun s => ms_t s <?. t1) (ab_body F order dt) fuel (MsState t y h (fst hist) (snd hist) status_default) ;;
    match r with
    | inl s => ret (BasicOutput SUCCESS (ms_ts s) (ms_ys s))
    | inr out => ret out
    end.

  (** multistep.hpp:235-242, the table [C], and 243-244, bdf_rhs_weight *)
  Definition bdf_coeffs : list (list T) :=
    [ [-. slit 10 (-1)];
      [frac (-4) 3; frac 1 3];
      [frac (-18) 11; frac 9 11; frac (-2) 11];
      [frac (-48) 25; frac 36 25; frac (-16) 25; frac 3 25];
      [ifrac (-300) 137; ifrac 300 137; ifrac (-200) 137; ifrac 75 137; ifrac (-12) 137];
      [ifrac (-360) 147; ifrac 450 147; ifrac (-400) 147; ifrac 225 147; ifrac (-72) 147; ifrac 10 147] ].
  Definition bdf_rhs_weight : list T := [slit 10 (-1); ifrac 2 3; ifrac 6 11; ifrac 12 25; ifrac 60 137; ifrac 60 147].

  (** multistep.hpp:280-285 *)
  Definition bdf_newton_options : options T :=
    let d := options_default in
    Options (slit 1 (-4)) (slit 1 (-10)) 500 true (o_max_step d) (o_refresh_jac d) (o_precondition d) (o_limit_step d).

  (** multistep.hpp:287-310, newton_multistep_helper *)
  Definition newton_multistep_helper (F : functor T St) (n : nat) (func_weight t_nplus : T) (const_part : list T) : nfunctor T St :=
    NFunctor (fun y => v <- f_fun F t_nplus y ;; a <- lift (vadd y const_part) ;; lift (vsub a (vscale func_weight v)))
             (fun y => J <- f_jac F t_nplus y ;; lift (msub (eye n) (mscale func_weight J))).

  (** The helper holds a copy of the functor (multistep.hpp:304), so that what the calls do to the functor's own state is
      lost at the end of the step. *)
  Definition on_copy {A} (m : M St A) : M W A := fun w => let (_, r) := m (w_st w) in (w, r).

  (** multistep.hpp:315-319: sum of bdf_params[i]*history[i] *)
  Definition interpolation_part (n : nat) (params : list T) (history : cbuf (list T)) : res (list T) :=
    foldR (fun p acc => h <-- cb_get ndebug history (Z.of_nat (fst p)) ;; vadd acc (vscale (snd p) h))
          (combine (seq 0 (length params)) params) (vzeros n).

  (** multistep.hpp:314-343 *)
  Definition bdf_body (F : functor T St) (order : Z) (n0 : nat) (dt : T) (s : ms_state) : M W (ms_state + basic_output) :=
    part <- lift (interpolation_part n0 (nth (Z.to_nat order - 1) bdf_coeffs []) (ms_hist s)) ;;
    let y := ms_y s in
    let G := newton_multistep_helper F (length y) (dt *. nth (Z.to_nat order - 1) bdf_rhs_weight (sZ 0)) (ms_t s +. dt) part in
    '(yn, st, _) <- on_copy (newton_iterate G y bdf_newton_options (ms_newton s) true) ;;
    if negb (st_conv st =? Newton.SUCCESS)%Z then ret (inr (BasicOutput INTERNAL_SOLVE_FAILURE (ms_ts s) (ms_ys s)))
    else
      let t := ms_t s +. dt in
      h <- lift (cb_push (ms_hist s) yn) ;;
      ret (inl (MsState t yn h (ms_ts s ++ [t]) (ms_ys s ++ [yn]) st)).

  (** multistep.hpp:201-347, bdf *)
  Definition bdf (fuel : nat) (F : functor T St) (t0 t1 : T) (y0 : list T) (order : Z) (dt : T) : M W basic_output :=
    if (order >? 6)%Z then ret (BasicOutput GENERAL_ERROR [] [])
    else if (order <=? 0)%Z then ret (BasicOutput GENERAL_ERROR [] [])
    else
      let dt := if t0 +. dt >?. t1 then t1 -. t0 else dt in
      assert_ ndebug (dt >?. sZ 0) ;;;
      history <- lift (cb_make [] (order + 1)) ;;
      hist <- bootstrap_history fuel F (order + 1) y0 t0 dt ;;
      '(t, y, h) <- lift (load_history hist history) ;;
      r <- while (fun s => ms_t s <?. t1) (bdf_body F order (length y0) dt) fuel (MsState t y h (fst hist) (snd hist) status_default) ;;
      match r with
      | inl s => ret (BasicOutput SUCCESS (ms_ts s) (ms_ys s))
      | inr out => ret out
      end.
End Multistep.
Arguments basic_output : clear implicits.
Arguments ms_state : clear implicits.
