(** examples/example_equations.cpp: the example program.  Messages to stderr, and the functions print_usage (lines 56-82) and
    print_output (lines 194-207, never called) are not modelled.  run_batch (lines 417-450) is never called. *)
From Coq Require Import String.
From Verif Require Import Model.Base Model.Scalar Model.LinAlg Model.Enums Model.Options Model.Newton Model.Erk Model.Irk Model.TestEquations Model.StabRegion.
Local Open Scope string_scope.
Local Open Scope sc_scope.
Local Open Scope mon_scope.

Section Examples.
  Context {T : Type} `{Scalar T} `{LinAlg T} `{Env T}.
  (** [std::stof] (the float is converted to double) and [std::stoi]; [None]: throws std::invalid_argument or std::out_of_range,
      both std::logic_error *)
  Variables (stof : string -> option T) (stoi : string -> option Z).
  Definition number {A} (o : option A) : res A := match o with Some x => Ok x | None => Err (EThrow ELogic) end.

  (** example_equations.cpp:40-53, struct user_options; [time_internals] has no initialiser: [None] until assigned *)
  Record user_options := UserOptions {
    u_eq : string; u_method : string; u_t0 : T; u_t1 : T; u_dt : T; u_rel_tol : T; u_abs_tol : T;
    u_time_internals : option bool; u_out_interval : Z; u_output_fname : string }.
  Definition user_default : user_options :=
    UserOptions "exponential" "LOBATTO_IIIC_85" (slit 0 (-1)) (slit 100 (-1)) (slit 1 (-2)) (slit 1 (-5)) (slit 1 (-4)) None 0 "".

  (** The assignments of parse_opts. *)
  Definition set_eq (o : user_options) x := UserOptions x (u_method o) (u_t0 o) (u_t1 o) (u_dt o) (u_rel_tol o) (u_abs_tol o) (u_time_internals o) (u_out_interval o) (u_output_fname o).
  Definition set_method (o : user_options) x := UserOptions (u_eq o) x (u_t0 o) (u_t1 o) (u_dt o) (u_rel_tol o) (u_abs_tol o) (u_time_internals o) (u_out_interval o) (u_output_fname o).
  Definition set_span (o : user_options) x y := UserOptions (u_eq o) (u_method o) x y (u_dt o) (u_rel_tol o) (u_abs_tol o) (u_time_internals o) (u_out_interval o) (u_output_fname o).
  Definition set_dt (o : user_options) x := UserOptions (u_eq o) (u_method o) (u_t0 o) (u_t1 o) x (u_rel_tol o) (u_abs_tol o) (u_time_internals o) (u_out_interval o) (u_output_fname o).
  Definition set_rel_tol (o : user_options) x := UserOptions (u_eq o) (u_method o) (u_t0 o) (u_t1 o) (u_dt o) x (u_abs_tol o) (u_time_internals o) (u_out_interval o) (u_output_fname o).
  Definition set_abs_tol (o : user_options) x := UserOptions (u_eq o) (u_method o) (u_t0 o) (u_t1 o) (u_dt o) (u_rel_tol o) x (u_time_internals o) (u_out_interval o) (u_output_fname o).
  Definition set_time_internals (o : user_options) x := UserOptions (u_eq o) (u_method o) (u_t0 o) (u_t1 o) (u_dt o) (u_rel_tol o) (u_abs_tol o) (Some x) (u_out_interval o) (u_output_fname o).
  Definition set_out_interval (o : user_options) x := UserOptions (u_eq o) (u_method o) (u_t0 o) (u_t1 o) (u_dt o) (u_rel_tol o) (u_abs_tol o) (u_time_internals o) x (u_output_fname o).
  Definition set_output_fname (o : user_options) x := UserOptions (u_eq o) (u_method o) (u_t0 o) (u_t1 o) (u_dt o) (u_rel_tol o) (u_abs_tol o) (u_time_internals o) (u_out_interval o) x.

  (** example_equations.cpp:87-180, parse_opts: the value returned and [u_opts] afterwards.  [args] is argv[i], argv[i+1], ...
      After a trailing --out-interval (line 145: no return) the string constructor gets the null pointer argv[argc]. *)
  Fixpoint parse_opts (args : list string) (o : user_options) : res (Z * user_options) :=
    match args with
    | [] => Ok (0%Z, o)
    | arg :: rest =>
        if (arg =? "-h") || (arg =? "--help") then Ok (1%Z, o)
        else if arg =? "--equation" then
          match rest with [] => Ok ((-1)%Z, o) | v :: rest => parse_opts rest (set_eq o v) end
        else if arg =? "--method" then
          match rest with [] => Ok ((-1)%Z, o) | v :: rest => parse_opts rest (set_method o v) end
        else if arg =? "--time-span" then
          match rest with
          | v :: v2 :: rest => x <-- number (stof v) ;; y <-- number (stof v2) ;; parse_opts rest (set_span o x y)
          | _ => Ok ((-1)%Z, o)
          end
        else if arg =? "--dt" then
          match rest with [] => Ok ((-1)%Z, o) | v :: rest => x <-- number (stof v) ;; parse_opts rest (set_dt o x) end
        else if arg =? "--rel-tol" then
          match rest with [] => Ok ((-1)%Z, o) | v :: rest => x <-- number (stof v) ;; parse_opts rest (set_rel_tol o x) end
        else if arg =? "--abs-tol" then
          match rest with [] => Ok ((-1)%Z, o) | v :: rest => x <-- number (stof v) ;; parse_opts rest (set_abs_tol o x) end
        else if arg =? "--out-interval" then
          match rest with [] => Err EUB | v :: rest => x <-- number (stoi v) ;; parse_opts rest (set_out_interval o x) end
        else if arg =? "--time-internals" then
          match rest with
          | [] => Ok ((-1)%Z, o)
          | v :: rest =>
              val <-- number (stoi v) ;;
              if negb (val =? 0)%Z && negb (val =? 1)%Z then Ok ((-2)%Z, o) else parse_opts rest (set_time_internals o (val =? 1)%Z)
          end
        else if arg =? "--output-file" then
          match rest with [] => Ok ((-1)%Z, o) | v :: rest => parse_opts rest (set_output_fname o v) end
        else Ok ((-1)%Z, o)
    end.

  (** Reading a variable that was never assigned. *)
  Definition initialised {W A} (o : option A) : M W A := match o with Some x => ret x | None => fail EUB end.

  (** example_equations.cpp:210-230, set_irk_options and set_erk_options, applied to the default options.  The option
      out_interval only controls messages. *)
  Definition irk_user_options (u : user_options) : irk_options T :=
    let n := options_default in
    IrkOptions (io_adaptive irk_default_options) (u_rel_tol u) (u_abs_tol u) (io_max_dt irk_default_options) (io_max_steps irk_default_options)
      (Some (Options (slit 1 (-1) *. smin (u_rel_tol u) (u_abs_tol u)) (o_dx_delta n) (o_maxit n) (o_time_internals n)
               (o_max_step n) (o_refresh_jac n) (o_precondition n) (o_limit_step n))).
  Definition erk_user_options (u : user_options) : erk_options T :=
    ErkOptions (eo_adaptive erk_default_options) (u_rel_tol u) (u_abs_tol u) (eo_max_dt erk_default_options) (eo_max_steps erk_default_options).

  (** example_equations.cpp:270-277.  The opened file is stream 0; a file that cannot be opened is not modelled. *)
  Definition user_output (u : user_options) : output_options :=
    if u_output_fname u =? "" then output_options_default
    else disable_store_in_vectors (set_output_stream output_options_default 0).

  Notation W := (world T unit).
  (** example_equations.cpp:267-312, int_equation.  print_performance (lines 248-264) reads [elapsed_time] and [accept_frac]. *)
  Definition int_equation (fuel : nat) (F : functor T unit) (u : user_options) (Y0 : list T) : M W Z :=
    let oo := user_output u in
    if negb (irk_id (u_method u) =? 0)%Z then
      _ <- initialised (u_time_internals u) ;;
      sol <- irk_odeint fuel F (u_t0 u) (u_t1 u) Y0 (irk_user_options u) oo (irk_id (u_method u)) (u_dt u) ;;
      if negb (io_status sol =? 0)%Z then ret 2%Z
      else _ <- initialised (io_elapsed_time sol) ;; _ <- initialised (io_accept_frac sol) ;; ret 0%Z
    else if negb (erk_id (u_method u) =? 0)%Z then
      _ <- initialised (u_time_internals u) ;;
      sol <- erk_odeint fuel F (u_t0 u) (u_t1 u) Y0 (erk_user_options u) oo (erk_id (u_method u)) (u_dt u) ;;
      if negb (eo_status sol =? 0)%Z then ret 2%Z
      else _ <- initialised (eo_elapsed_time sol) ;; _ <- initialised (eo_accept_frac sol) ;; ret 0%Z
    else ret (-1)%Z.

  (** The numbers on standard input: [Some x] is a number, [None] something else.  After a failed extraction or at the end of the
      input every further extraction fails and leaves its variable alone; the failing one stores 0. *)
  Definition input := option (list (option T)).
  (** example_equations.cpp:183-189, read_param, whose result is never used: (the input afterwards, the variable afterwards) *)
  Definition read_param (i : input) (old : option T) : input * option T :=
    match i with
    | Some (Some x :: rest) => (Some rest, Some x)
    | Some (None :: _) => (None, Some (sZ 0))
    | _ => (None, old)
    end.

  Section Equations.
    Variables (fuel : nat) (u : user_options) (word : option string) (nums : list (option T)).
    (** example_equations.cpp:316-338 *)
    Definition solve_robertson : M W Z :=
      let resume := match word with Some a => (a =? "Y") || (a =? "y") || (a =? "yes") || (a =? "Yes") | None => false end in
      if negb resume then ret 1%Z else int_equation fuel rober u [slit 10 (-1); slit 0 (-1); slit 0 (-1)].
    (** example_equations.cpp:341-358 *)
    Definition three_body_start : list T :=
      [slit 10 (-1); slit 0 (-1); slit 30 (-1); slit 20 (-1); slit 0 (-1); slit 30 (-1);
       slit 0 (-1); slit 20 (-1); slit (-10) (-1); slit 0 (-1); slit (-10) (-1); slit 0 (-1)].
    Definition solve_three_body (Y0 : list T) : M W Z :=
      let (i, m1) := read_param (Some nums) None in
      let (i, m2) := read_param i None in
      let (i, m3) := read_param i None in
      m1 <- initialised m1 ;; m2 <- initialised m2 ;; m3 <- initialised m3 ;;
      int_equation fuel (three_body m1 m2 m3) u Y0.
    (** A member that has a default value and is read once. *)
    Definition value_of (o : option T) : T := match o with Some x => x | None => sZ 0 end.
    (** example_equations.cpp:361-368; test_equations.hpp:94 *)
    Definition solve_van_der_pol : M W Z :=
      let (i, mu) := read_param (Some nums) (Some (slit 5 (-1))) in
      int_equation fuel (vdpol (value_of mu)) u [slit 20 (-1); slit 0 (-1)].
    (** example_equations.cpp:371-380; test_equations.hpp:123 *)
    Definition solve_brusselator : M W Z :=
      let (i, a) := read_param (Some nums) (Some (slit 10 (-1))) in
      let (i, b) := read_param i (Some (slit 25 (-1))) in
      int_equation fuel (bruss (value_of a) (value_of b)) u [slit 25 (-1); slit 25 (-1)].
    (** example_equations.cpp:383-391; test_equations.hpp:40 *)
    Definition solve_exponential : M W Z :=
      let (i, l) := read_param (Some nums) (Some (slit 10 (-1))) in
      int_equation fuel (exponential (value_of l)) u [slit 10 (-1)].
    (** example_equations.cpp:394-400 *)
    Definition solve_stiff_equation : M W Z := int_equation fuel stiff_eq u [slit 10 (-1); slit 10 (-1)].
    (** example_equations.cpp:403-414; test_equations.hpp:523-524 *)
    Definition solve_lorenz : M W Z :=
      let (i, r) := read_param (Some nums) (Some (sZ 28)) in
      let (i, s) := read_param i (Some (sZ 10)) in
      let (i, b) := read_param i (Some (slit 80 (-1) /. slit 30 (-1))) in
      int_equation fuel (lorenz (value_of s) (value_of r) (value_of b)) u [slit 10 (-1); slit 10 (-1); slit 10 (-1)].
    (** example_equations.cpp:484-487 *)
    Definition three_body_resume : list T :=
      [slit (-161263) (-3); slit 195287 (-3); slit (-16126) (-2); slit 195316 (-3); slit (-194043) (-2); slit (-251987) (-2);
       slit 210719 (-4); slit (-156866) (-5); slit (-217366) (-4); slit 236384 (-5); slit (-133533) (-5); slit (-173402) (-5)].
    (** example_equations.cpp:474-499 *)
    Definition solve_equation : M W Z :=
      if u_eq u =? "exponential" then solve_exponential
      else if u_eq u =? "stiff-equation" then solve_stiff_equation
      else if u_eq u =? "robertson" then solve_robertson
      else if u_eq u =? "three-body" then solve_three_body three_body_start
      else if u_eq u =? "three-body-resume" then solve_three_body three_body_resume
      else if u_eq u =? "van-der-pol" then solve_van_der_pol
      else if u_eq u =? "brusselator" then solve_brusselator
      else if u_eq u =? "lorenz" then solve_lorenz
      else ret (-1)%Z.
  End Equations.

  (** example_equations.cpp:417-450, run_batch.  The statuses are combined with the bitwise and. *)
  Definition run_batch (fuel : nat) : M W Z :=
    let u := set_out_interval (set_method user_default "LOBATTO_IIIC_85") 1000 in
    status_TB <- int_equation fuel (three_body (slit 10 (-1)) (slit 10 (-1)) (slit 10000 (-1))) u three_body_start ;;
    status_L <- int_equation fuel (lorenz (sZ 1) (sZ 1) (sZ 1)) u [slit 10 (-1); slit 10 (-1); slit 10 (-1)] ;;
    status_R <- int_equation fuel rober u [slit 10 (-1); slit 0 (-1); slit 0 (-1)] ;;
    status_V <- int_equation fuel (vdpol (slit 1 (-4))) u [slit 10 (-1); slit 0 (-1); slit 0 (-1)] ;;
    ret (Z.land (Z.land (Z.land status_TB status_L) status_R) status_V).

  (** example_equations.cpp:454-503, main; [args] is argv[1], argv[2], ... *)
  Definition examples_main (fuel : nat) (args : list string) (word : option string) (nums : list (option T)) : M W Z :=
    match args with
    | [] => ret 3%Z
    | _ =>
        '(parse_status, u) <- lift (parse_opts args user_default) ;;
        if (parse_status <? 0)%Z then ret (-1)%Z
        else if (0 <? parse_status)%Z then ret 0%Z
        else solve_equation fuel u word nums
    end.
End Examples.
Arguments user_options : clear implicits.
