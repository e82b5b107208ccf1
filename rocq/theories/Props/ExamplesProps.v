(** Property theorems: the program of examples/ (C97-C100).

    [examples_main stof stoi fuel args word nums w] is the program started with arguments [args] (argv[1], argv[2], ...) and standard
    input that begins with the word [word] or the numbers [nums]; [(w', Ok c)] means that it ended with exit code [c] in world [w'],
    whose [w_out] is what was written to the output file.  [stof] and [stoi] say which strings std::stof and std::stoi accept. *)
From Coq Require Import Reals Lra String.
From Verif Require Import Model.Base Model.Scalar Model.LinAlg Model.Enums Model.Options Model.Newton Model.Erk Model.Irk Model.TestEquations Model.Examples.
From Verif Require Import Spec.Sums Spec.Methods Spec.Observe Spec.ExamplesSpec.
From Verif Require Import Proofs.ExactInstance Proofs.ErkExamples Proofs.ExamplesParse Proofs.ExamplesMain Proofs.ExamplesFile Proofs.ExamplesExamples.
Local Open Scope string_scope.

(** C97.  The command line: readable options give the last value of each setting, ... *)
Theorem C97_last_setting_wins :
  forall (T : Type) (HS : Scalar T) stof stoi ss, Forall (readable stof stoi) ss ->
  parse_opts stof stoi (concat (map words ss)) user_default = Ok (0%Z, options_of stof stoi ss).
Proof. exact (fun T HS => @parse_accepts T HS). Qed.
Print Assumptions C97_last_setting_wins.
(** ... reading stops at the first thing that is no option with its values, ... *)
Theorem C97_first_error_stops :
  forall (T : Type) (HS : Scalar T) stof stoi ss rest r, Forall (readable stof stoi) ss -> stops stof stoi rest r ->
  match r with
  | Ok c => exists u, parse_opts (T := T) stof stoi (concat (map words ss) ++ rest) user_default = Ok (c, u)
  | Err e => parse_opts (T := T) stof stoi (concat (map words ss) ++ rest) user_default = Err e
  end.
Proof. exact (fun T HS => @parse_stops_explicit T HS). Qed.
Print Assumptions C97_first_error_stops.
(** ... and every list of arguments is of one of these two forms. *)
Theorem C97_every_command_line :
  forall (T : Type) (stof : string -> option T) stoi args, exists ss rest,
  args = (concat (map words ss) ++ rest)%list /\ Forall (readable stof stoi) ss /\ (rest = [] \/ exists r, stops stof stoi rest r).
Proof. exact @parse_total. Qed.
Print Assumptions C97_every_command_line.
Example C97_example :
  (exists u, parse_opts (T := R) xp_stof xp_stoi (concat (map words xp_line)) user_default = Ok (0%Z, u) /\ u_method u = "RUNGE_KUTTA_4" /\ u_dt u = (/ 4)%R) /\
  stops xp_stof xp_stoi ["--out-interval"] (Err EUB) /\ stops xp_stof xp_stoi ["--abs-tol"; "small"; "--help"] (Err (EThrow ELogic)).
Proof.
  split; [|split].
  - eexists. split; [exact (parse_accepts xp_stof xp_stoi xp_line xp_readable)|]. rewrite xp_options. split; reflexivity.
  - apply stop_interval.
  - apply stop_number; [cbn; tauto|reflexivity].
Qed.

(** C98.  A run without --time-internals that reaches a known method reads a variable that has no value, and nothing is integrated. *)
Theorem C98_timing_option_required :
  forall (T : Type) (HS : Scalar T) (HL : LinAlg T) (HE : Env T) stof stoi fuel ss word nums F Y0 w,
  ss <> [] -> Forall (readable stof stoi) ss -> let u := options_of stof stoi ss in
  problem (u_eq u) word nums F Y0 -> In (u_method u) (map fst irk_methods ++ map fst erk_methods)%list ->
  (forall v, ~ In (STiming v) ss) -> examples_main stof stoi fuel (concat (map words ss)) word nums w = (w, Err EUB).
Proof. exact (fun T HS HL HE => @main_untimed T HS HL HE). Qed.
Print Assumptions C98_timing_option_required.
(** The same for the batch run that the program contains. *)
Theorem C98_batch_run_undefined :
  forall (T : Type) (HS : Scalar T) (HL : LinAlg T) (HE : Env T) fuel (w : world T unit), run_batch fuel w = (w, Err EUB).
Proof. exact (fun T HS HL HE => @batch_undefined T HS HL HE). Qed.
Print Assumptions C98_batch_run_undefined.
(** The command line "--equation lorenz", say: *)
Example C98_example : forall word nums, exists F Y0, let u := options_of xp_stof xp_stoi [SEquation "lorenz"] in
  @problem R RScalar exact_LA (u_eq u) word nums F Y0 /\ In (u_method u) (map fst irk_methods ++ map fst erk_methods)%list.
Proof.
  intros word nums. destruct (@problem_cases R RScalar exact_LA "lorenz" word nums) as [H|[[H _]|[[H _]|(F & Y0 & H)]]].
  - exfalso. apply H. cbn. tauto.
  - discriminate H.
  - exfalso. cbn in H. intuition discriminate.
  - exists F, Y0. split; [exact H|]. cbn. tauto.
Qed.

(** C99.  What the exit code tells.  The ways to end without integrating leave the world as it was; ... *)
Theorem C99_refusals :
  forall (T : Type) (HS : Scalar T) (HL : LinAlg T) (HE : Env T) (stof : string -> option T) stoi fuel word nums w,
  let main args := examples_main stof stoi fuel args word nums w in
  main [] = (w, Ok 3%Z) /\
  (forall ss rest r, Forall (readable stof stoi) ss -> stops stof stoi rest r ->
     main (concat (map words ss) ++ rest)%list = (w, match r with Ok c => Ok (if (c <? 0)%Z then -1 else 0)%Z | Err e => Err e end)) /\
  forall ss, ss <> [] -> Forall (readable stof stoi) ss -> let u := options_of stof stoi ss in
    (~ In (u_eq u) equations -> main (concat (map words ss)) = (w, Ok (-1)%Z)) /\
    (u_eq u = "robertson" -> (forall a, word = Some a -> ~ In a ["Y"; "y"; "yes"; "Yes"]) -> main (concat (map words ss)) = (w, Ok 1%Z)) /\
    (In (u_eq u) ["three-body"; "three-body-resume"] -> In None (parameters [None; None; None] nums) -> main (concat (map words ss)) = (w, Err EUB)) /\
    (forall F Y0, problem (u_eq u) word nums F Y0 -> ~ In (u_method u) (map fst irk_methods ++ map fst erk_methods)%list -> main (concat (map words ss)) = (w, Ok (-1)%Z)).
Proof. exact (fun T HS HL HE => @main_refusals T HS HL HE). Qed.
Print Assumptions C99_refusals.
(** ... otherwise the program calls the library once, with the problem and the options asked for: it ends with 0 if that call returns,
    and with the exception or abort of that call if not. *)
Theorem C99_zero_if_library_returns :
  forall (T : Type) (HS : Scalar T) (HL : LinAlg T) (HE : Env T) stof stoi fuel ss word nums F Y0 w w' r,
  ss <> [] -> Forall (readable stof stoi) ss -> (exists v, In (STiming v) ss) -> let u := options_of stof stoi ss in
  problem (u_eq u) word nums F Y0 -> library_call fuel u F Y0 w w' r ->
  examples_main stof stoi fuel (concat (map words ss)) word nums w = (w', match r with Ok _ => Ok 0%Z | Err e => Err e end).
Proof. exact (fun T HS HL HE => @main_calls T HS HL HE). Qed.
Print Assumptions C99_zero_if_library_returns.
(** So the code 2 for a failed integration is never returned, codes other than 0 mean that nothing happened, and a file is written only
    if one was named. *)
Theorem C99_exit_codes :
  forall (T : Type) (HS : Scalar T) (HL : LinAlg T) (HE : Env T) (stof : string -> option T) stoi fuel args word nums w w' c,
  examples_main stof stoi fuel args word nums w = (w', Ok c) ->
  In c [-1; 0; 1; 3]%Z /\ (c <> 0%Z -> w' = w) /\
  (c = 0%Z -> w_out w' <> w_out w ->
     exists ss, args = concat (map words ss) /\ (exists v, In (STiming v) ss) /\ (exists v, In (SFile v) ss)).
Proof. exact (fun T HS HL HE => @main_codes T HS HL HE). Qed.
Print Assumptions C99_exit_codes.
(** Which command lines do what: exactly these cases return. *)
Theorem C99_returns :
  forall (T : Type) (HS : Scalar T) (HL : LinAlg T) (HE : Env T) (stof : string -> option T) stoi fuel args word nums w w' c,
  examples_main stof stoi fuel args word nums w = (w', Ok c) ->
  (args = [] /\ c = 3%Z /\ w' = w) \/
  (exists ss, ss <> [] /\ args = concat (map words ss) /\ Forall (readable stof stoi) ss /\ let u := options_of stof stoi ss in
     (~ In (u_eq u) equations /\ c = (-1)%Z /\ w' = w) \/
     (u_eq u = "robertson" /\ (forall a, word = Some a -> ~ In a ["Y"; "y"; "yes"; "Yes"]) /\ c = 1%Z /\ w' = w) \/
     (exists F Y0, problem (u_eq u) word nums F Y0 /\
        ((~ In (u_method u) (map fst irk_methods ++ map fst erk_methods)%list /\ c = (-1)%Z /\ w' = w) \/
         ((exists v, In (STiming v) ss) /\ library_call fuel u F Y0 w w' (Ok tt) /\ c = 0%Z)))) \/
  (exists ss rest r, args = (concat (map words ss) ++ rest)%list /\ Forall (readable stof stoi) ss /\ stops stof stoi rest (Ok r) /\
     c = (if (r <? 0)%Z then -1 else 0)%Z /\ w' = w).
Proof. exact (fun T HS HL HE => @main_returns T HS HL HE). Qed.
Print Assumptions C99_returns.
Example C99_example : exists n w', forall fuel, (n <= fuel)%nat ->
  @library_call R RScalar exact_LA (exr_E false) fuel (options_of xp_stof xp_stoi xp_line) (exponential (-3)%R) [Rlit 10 (-1)] (World tt []) w' (Ok tt).
Proof.
  destruct (@exponential_call (exr_E false) exact_LA _ (options_of xp_stof xp_stoi xp_line) (-3)%R _ _ (World tt []) (or_intror (or_introl eq_refl)) eq_refl) as (n & N & w' & _ & _ & H & _).
  - discriminate.
  - exact xp_span.
  - cbn. lra.
  - exists n, w'. exact H.
Qed.

(** C100.  A whole run of the program on y' = l y, y(t0) = 1, with the methods of fixed step size: it ends with 0, and the file holds
    the states of the steps, each one beside the time at which its step started. *)
Theorem C100_exponential_run :
  forall (HE : Env R) (HL : LinAlg R) (HX : ExactProducts HL) stof stoi ss word nums l factor w,
  ss <> [] -> Forall (readable stof stoi) ss -> (exists v, In (STiming v) ss) -> let u := options_of stof stoi ss in
  u_eq u = "exponential" -> In (u_method u, factor) fixed_step_factors -> u_output_fname u <> "" -> (u_t0 u < u_t1 u)%R -> (0 < u_dt u)%R ->
  parameters [Some 1%R] nums = [Some l] ->
  exists n N w', (1 <= N)%nat /\ (INR (N - 1) * u_dt u < u_t1 u - u_t0 u <= INR N * u_dt u)%R /\
    (forall fuel, (n <= fuel)%nat -> examples_main stof stoi fuel (concat (map words ss)) word nums w = (w', Ok 0%Z)) /\
    w_out w' = (w_out w ++ exponential_lines factor l (u_t0 u) (u_t1 u) (u_dt u) N)%list.
Proof. exact (fun HE HL HX => @main_exponential HE HL HX). Qed.
Print Assumptions C100_exponential_run.
Example C100_example : let u := options_of xp_stof xp_stoi xp_line in
  Forall (readable xp_stof xp_stoi) xp_line /\ In (STiming "0") xp_line /\ u_eq u = "exponential" /\ In (u_method u) (map fst fixed_step_factors) /\ u_output_fname u = "out.dat" /\
  (u_t0 u < u_t1 u)%R /\ (0 < u_dt u)%R /\ parameters [Some 1%R] [Some (-3)%R; None] = [Some (-3)%R].
Proof.
  cbv zeta. rewrite xp_options. cbn [u_eq u_method u_output_fname u_t0 u_t1 u_dt]. repeat split; try exact xp_readable; try exact xp_span; try (cbn; tauto). lra.
Qed.
