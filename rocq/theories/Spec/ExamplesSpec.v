(** The command line of the example program, and the problems it integrates. *)
From Coq Require Import Reals String.
From Verif Require Import Model.Base Model.Scalar Model.LinAlg Model.Enums Model.Options Model.Newton Model.Erk Model.Irk Model.TestEquations Model.Examples.
Local Open Scope string_scope.

(** One option with its values, as typed. *)
Inductive setting :=
| SEquation (v : string) | SMethod (v : string) | SSpan (v v2 : string) | SDt (v : string) | SRelTol (v : string) | SAbsTol (v : string)
| SInterval (v : string) | STiming (v : string) | SFile (v : string).
Definition words (s : setting) : list string :=
  match s with
  | SEquation v => ["--equation"; v] | SMethod v => ["--method"; v] | SSpan v v2 => ["--time-span"; v; v2] | SDt v => ["--dt"; v]
  | SRelTol v => ["--rel-tol"; v] | SAbsTol v => ["--abs-tol"; v] | SInterval v => ["--out-interval"; v]
  | STiming v => ["--time-internals"; v] | SFile v => ["--output-file"; v]
  end.
Definition all_options : list string :=
  ["-h"; "--help"; "--equation"; "--method"; "--time-span"; "--dt"; "--rel-tol"; "--abs-tol"; "--out-interval"; "--time-internals"; "--output-file"].

Section CommandLine.
  Context {T : Type} `{Scalar T}.
  Variables (stof : string -> option T) (stoi : string -> option Z).
  (** the values are numbers where numbers are needed *)
  Definition readable (s : setting) : Prop :=
    match s with
    | SEquation _ | SMethod _ | SFile _ => True
    | SSpan v v2 => stof v <> None /\ stof v2 <> None
    | SDt v | SRelTol v | SAbsTol v => stof v <> None
    | SInterval v => stoi v <> None
    | STiming v => stoi v = Some 0%Z \/ stoi v = Some 1%Z
    end.
  (** the last setting that gives a value, or the default *)
  Definition last_value {A} (value : setting -> option A) (default : A) (ss : list setting) : A :=
    fold_left (fun a s => match value s with Some x => x | None => a end) ss default.
  Definition options_of (ss : list setting) : user_options T :=
    UserOptions
      (last_value (fun s => match s with SEquation v => Some v | _ => None end) "exponential" ss)
      (last_value (fun s => match s with SMethod v => Some v | _ => None end) "LOBATTO_IIIC_85" ss)
      (last_value (fun s => match s with SSpan v _ => stof v | _ => None end) (slit 0 (-1)) ss)
      (last_value (fun s => match s with SSpan _ v => stof v | _ => None end) (slit 100 (-1)) ss)
      (last_value (fun s => match s with SDt v => stof v | _ => None end) (slit 1 (-2)) ss)
      (last_value (fun s => match s with SRelTol v => stof v | _ => None end) (slit 1 (-5)) ss)
      (last_value (fun s => match s with SAbsTol v => stof v | _ => None end) (slit 1 (-4)) ss)
      (last_value (fun s => match s with STiming v => match stoi v with Some n => Some (Some (n =? 1)%Z) | None => None end | _ => None end) None ss)
      (last_value (fun s => match s with SInterval v => stoi v | _ => None end) 0%Z ss)
      (last_value (fun s => match s with SFile v => Some v | _ => None end) "" ss).
  (** where reading options stops, and with which value or error *)
  Inductive stops : list string -> res Z -> Prop :=
  | stop_help a rest : In a ["-h"; "--help"] -> stops (a :: rest) (Ok 1%Z)
  | stop_missing a : In a ["--equation"; "--method"; "--time-span"; "--dt"; "--rel-tol"; "--abs-tol"; "--time-internals"; "--output-file"] -> stops [a] (Ok (-1)%Z)
  | stop_missing_second v : stops ["--time-span"; v] (Ok (-1)%Z)
  | stop_interval : stops ["--out-interval"] (Err EUB)
  | stop_boolean v n rest : stoi v = Some n -> n <> 0%Z -> n <> 1%Z -> stops ("--time-internals" :: v :: rest) (Ok (-2)%Z)
  | stop_number a v rest : In a ["--dt"; "--rel-tol"; "--abs-tol"] -> stof v = None -> stops (a :: v :: rest) (Err (EThrow ELogic))
  | stop_span v v2 rest : stof v = None \/ stof v2 = None -> stops ("--time-span" :: v :: v2 :: rest) (Err (EThrow ELogic))
  | stop_integer a v rest : In a ["--out-interval"; "--time-internals"] -> stoi v = None -> stops (a :: v :: rest) (Err (EThrow ELogic))
  | stop_unknown a rest : ~ In a all_options -> stops (a :: rest) (Ok (-1)%Z).
End CommandLine.

(** The right-hand side and initial state that belong to the name of an equation, when standard input starts with the word given (yes
    or no, for robertson) or the numbers given (the parameters).  Parameters that are not numbers become 0, and those after them, or
    after the end of the input, keep the values they had: [None] if they never had one. *)
Section Problems.
  Context {T : Type} `{Scalar T} `{LinAlg T}.
  Fixpoint parameters (before : list (option T)) (nums : list (option T)) : list (option T) :=
    match before, nums with
    | _ :: before, Some x :: nums => Some x :: parameters before nums
    | _ :: before, None :: _ => Some (sZ 0) :: before
    | _, _ => before
    end.
  Inductive problem : string -> option string -> list (option T) -> functor T unit -> list T -> Prop :=
  | p_exponential w nums l : parameters [Some (slit 10 (-1))] nums = [Some l] -> problem "exponential" w nums (exponential l) [slit 10 (-1)]
  | p_stiff w nums : problem "stiff-equation" w nums stiff_eq [slit 10 (-1); slit 10 (-1)]
  | p_robertson w nums : In w ["Y"; "y"; "yes"; "Yes"] -> problem "robertson" (Some w) nums rober [slit 10 (-1); slit 0 (-1); slit 0 (-1)]
  | p_three w nums m1 m2 m3 : parameters [None; None; None] nums = [Some m1; Some m2; Some m3] ->
      problem "three-body" w nums (three_body m1 m2 m3)
        [slit 10 (-1); slit 0 (-1); slit 30 (-1); slit 20 (-1); slit 0 (-1); slit 30 (-1); slit 0 (-1); slit 20 (-1); slit (-10) (-1); slit 0 (-1); slit (-10) (-1); slit 0 (-1)]
  | p_three_resume w nums m1 m2 m3 : parameters [None; None; None] nums = [Some m1; Some m2; Some m3] ->
      problem "three-body-resume" w nums (three_body m1 m2 m3)
        [slit (-161263) (-3); slit 195287 (-3); slit (-16126) (-2); slit 195316 (-3); slit (-194043) (-2); slit (-251987) (-2);
         slit 210719 (-4); slit (-156866) (-5); slit (-217366) (-4); slit 236384 (-5); slit (-133533) (-5); slit (-173402) (-5)]
  | p_vdpol w nums mu : parameters [Some (slit 5 (-1))] nums = [Some mu] -> problem "van-der-pol" w nums (vdpol mu) [slit 20 (-1); slit 0 (-1)]
  | p_bruss w nums a b : parameters [Some (slit 10 (-1)); Some (slit 25 (-1))] nums = [Some a; Some b] ->
      problem "brusselator" w nums (bruss a b) [slit 25 (-1); slit 25 (-1)]
  | p_lorenz w nums r s b : parameters [Some (sZ 28); Some (sZ 10); Some (slit 80 (-1) /. slit 30 (-1))%sc] nums = [Some r; Some s; Some b] ->
      problem "lorenz" w nums (lorenz s r b) [slit 10 (-1); slit 10 (-1); slit 10 (-1)].
End Problems.
Definition equations : list string :=
  ["exponential"; "stiff-equation"; "robertson"; "three-body"; "three-body-resume"; "van-der-pol"; "brusselator"; "lorenz"].

(** The call of the library that the options ask for: adaptive steps, the tolerances given, no limit on the size or number of steps,
    Newton's tolerance a tenth of the smaller one; lines go to the file if one is named, and otherwise the states are kept in memory.
    The result is the state of the world after the call, and whether it returned. *)
Section LibraryCall.
  Context {T : Type} `{Scalar T} `{LinAlg T} `{Env T}.
  Variables (fuel : nat) (u : user_options T) (F : functor T unit) (Y0 : list T) (w : world T unit).
  Definition output_of : output_options := if u_output_fname u =? "" then OutputOptions 1 1 None else OutputOptions 2 1 (Some 0%nat).
  Inductive library_call : world T unit -> res unit -> Prop :=
  | call_irk m w' r : In (u_method u, m) irk_methods ->
      irk_odeint fuel F (u_t0 u) (u_t1 u) Y0
        (IrkOptions true (u_rel_tol u) (u_abs_tol u) (sZ 0) (-1)
           (Some (Options (slit 1 (-1) *. smin (u_rel_tol u) (u_abs_tol u))%sc (slit 1 (-4)) 5000 false (sZ (-1)) 10 false false)))
        output_of m (u_dt u) w = (w', r) ->
      library_call w' (match r with Ok _ => Ok tt | Err e => Err e end)
  | call_erk m w' r : In (u_method u, m) erk_methods ->
      erk_odeint fuel F (u_t0 u) (u_t1 u) Y0 (ErkOptions true (u_rel_tol u) (u_abs_tol u) (sZ 0) (-1)) output_of m (u_dt u) w = (w', r) ->
      library_call w' (match r with Ok _ => Ok tt | Err e => Err e end).
End LibraryCall.

(** y' = l y with fixed steps: the factor of one step of size h with h l = z, and the lines the file gets. *)
Definition fixed_step_factors : list (string * (R -> R)) :=
  [("EXPLICIT_EULER", fun z => 1 + z); ("RUNGE_KUTTA_4", fun z => 1 + z + z ^ 2 / 2 + z ^ 3 / 6 + z ^ 4 / 24)]%R.
(** [N] steps: all but the last have size [dt], the last one ends at [t1]; a line holds the time at which a step starts and the state
    that it ends with. *)
Definition exponential_lines (factor : R -> R) (l t0 t1 dt : R) (N : nat) : list (R * list R) :=
  (map (fun k => (t0 + INR k * dt, [factor (l * dt) ^ S k])) (seq 0 (N - 1)) ++
   [(t0 + INR (N - 1) * dt, [factor (l * (t1 - (t0 + INR (N - 1) * dt))) * factor (l * dt) ^ (N - 1)])])%list%R.
