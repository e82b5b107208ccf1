(** Property theorems: the program of stability_region/ (C91-C95).

    [stability_function z A b] is the function that computes one value; [stability_region name embedded []] and
    [stability_limit name []] write a file (the lines written so far and the outcome); [stab_main argv1] is the whole program, with
    the contents of its three files and the exit code.  States of y' = l y (l complex) are pairs (real part, imaginary part). *)
From Coq Require Import Reals Lra String.
From Verif Require Import Model.Base Model.Scalar Model.LinAlg Model.Enums Model.Coeffs Model.IrkCoeffs Model.ErkCoeffs Model.StabRegion.
From Verif Require Import Spec.Sums Spec.Trees Spec.RkSpec Spec.Methods Spec.StabilitySpec Spec.ComplexSpec.
From Verif Require Import Proofs.IrkTotalExamples Proofs.StabRegionProofs Proofs.StabProgram Proofs.StabExamples.
Local Open Scope R_scope.

(** C91.  The value at z is the complex number by which every Runge-Kutta step with h l = z multiplies solutions of y' = l y; ... *)
Theorem C91_stability_function_is_the_factor :
  forall (CA : CxAlg R) (HC : ExactCx CA) z A b v, stability_function z A b = Ok v ->
  forall c t h l, cmul (h, 0) l = z ->
  (forall u, length u = 2%nat -> exists u' k, rk_step 2 (length b) (mentry A) (ventry b) c (linear_rhs 2 (times_matrix l)) t h u u' k) /\
  (forall u u' k, rk_step 2 (length b) (mentry A) (ventry b) c (linear_rhs 2 (times_matrix l)) t h u u' k -> as_cx u' = cmul v (as_cx u)).
Proof. exact (fun CA HC => @value_factor CA HC). Qed.
Print Assumptions C91_stability_function_is_the_factor.
(** ... it is missing only when the sizes do not fit (std::logic_error) or I - z A is singular (std::runtime_error). *)
Theorem C91_stability_function_missing :
  forall (CA : CxAlg R) (HC : ExactCx CA) z (A : mat R) b e, stability_function z A b = Err e ->
  (e = EThrow ELogic /\ ~ (nrows A = length b /\ ncols A = length b)) \/
  (e = EThrow ERuntime /\ nrows A = length b /\ ncols A = length b /\ exists x, (exists j, (j < length b)%nat /\ x j <> (0, 0)) /\
     forall i, (i < length b)%nat -> x i = cmul z (csum (length b) (fun j => cmul (mentry A i j, 0) (x j)))).
Proof. exact (fun CA HC => @value_error CA HC). Qed.
Print Assumptions C91_stability_function_missing.
Example C91_example : exists v, @stability_function R RScalar choice_cx (1, 1) (of_rows 0 [[1]]) [1] = Ok v /\ cabs v = / sqrt ((1 - 1) * (1 - 1) + 1 * 1).
Proof. apply (@euler_value choice_cx choice_cx_exact (1, 1)). cbn. lra. Qed.

(** C92.  In the left half plane the value exists and is at most 1, and it decays along the real axis. *)
Theorem C92_left_half_plane :
  forall (CA : CxAlg R) (HC : ExactCx CA) (HE : Env R) m b sc z, In (m, b) last_weights -> irk_get_coefficients m = Ok sc -> re z <= 0 ->
  exists v, stability_function z (sc_A sc) (sc_b sc) = Ok v /\ cabs v <= 1 /\ (1 + 2 * b * - re z) * (cabs v * cabs v) <= 1.
Proof. exact (fun CA HC HE => @stable_values CA HC HE). Qed.
Print Assumptions C92_left_half_plane.
Example C92_example : In (RADAU_IIA_53, 1 / 9) last_weights /\ exists sc, @irk_get_coefficients R RScalar it_E RADAU_IIA_53 = Ok sc.
Proof. split; [cbn; tauto|]. destruct (TablesGeneric.irk_get_ok (T := R) RADAU_IIA_53) as (sc & Hg & _). exists sc. exact Hg. Qed.

(** C93.  The region files of the implicit methods: when the function returns, every line shows the factor at its point ... *)
Theorem C93_region_files_of_implicit_methods :
  forall (CA : CxAlg R) (HC : ExactCx CA) (HE : Env R) name m sc (embedded : bool) w,
  In (name, m) irk_methods -> irk_get_coefficients m = Ok sc -> stability_region name embedded [] = (w, Ok tt) ->
  let b := if embedded then sc_b2 sc else sc_b sc in
  exists val, w = region_lines val /\ forall x y, In x region_x -> In y region_y -> grows_by (length b) (mentry (sc_A sc)) (ventry b) (x, y) (val x y).
Proof. exact (fun CA HC HE => @region_grows CA HC HE). Qed.
Print Assumptions C93_region_files_of_implicit_methods.
(** ... and when it does not, nothing was written and one of the values is missing. *)
Theorem C93_region_files_all_or_nothing :
  forall (CA : CxAlg R) (HC : ExactCx CA) (HE : Env R) name m sc (embedded : bool) w e,
  In (name, m) irk_methods -> irk_get_coefficients m = Ok sc -> stability_region name embedded [] = (w, Err e) ->
  w = [] /\ exists x y, In x region_x /\ In y region_y /\ stability_function (x, y) (sc_A sc) (if embedded then sc_b2 sc else sc_b sc) = Err e.
Proof. exact (fun CA HC HE => @region_error CA HE). Qed.
Print Assumptions C93_region_files_all_or_nothing.
(** In the embedded file of a method with a weight gamma on the slope at the start of the step the factors are not those of the
    comparison formula (gamma, b2): gamma z is missing. *)
Theorem C93_embedded_file_lacks_gamma :
  forall (CA : CxAlg R) (HC : ExactCx CA) l h (A : mat R) b2 gamma c v t u u' k, stability_function (cmul (h, 0) l) A b2 = Ok v ->
  rk_step 2 (S (length b2)) (ext_a (length b2) (mentry A)) (ext_b (length b2) (ventry b2) gamma) c (linear_rhs 2 (times_matrix l)) t h u u' k ->
  as_cx u' = cmul (cadd v (cmul (gamma, 0) (cmul (h, 0) l))) (as_cx u).
Proof. exact (fun CA HC => @comparison_factor CA HC). Qed.
Print Assumptions C93_embedded_file_lacks_gamma.
(** The region file of backward Euler is written (the embedded one is not: C95). *)
Example C93_example :
  @stability_region R RScalar it_E choice_cx "IMPLICIT_EULER" false [] = (region_lines (fun x y => / sqrt ((1 - x) * (1 - x) + y * y)), Ok tt).
Proof. exact (@euler_region choice_cx choice_cx_exact it_E). Qed.

(** C94.  Finding: the region files of every explicit method, and of the implicit methods without coefficients, claim the factor 1
    everywhere, because their coefficients are looked up with irk::get_coefficients; ... *)
Theorem C94_explicit_region_files_constant :
  forall (CA : CxAlg R) (HC : ExactCx CA) (HE : Env R) name m embedded,
  In (name, m) erk_methods \/ (In (name, m) irk_methods /\ ~ In m implicit_methods) ->
  stability_region name embedded [] = (region_lines (fun _ _ => 1), Ok tt).
Proof. exact (fun CA HC HE => @region_constant CA HC HE). Qed.
Print Assumptions C94_explicit_region_files_constant.
(** ... but at z = -1/2, for one, every explicit method has a factor, and it is smaller than 1. *)
Theorem C94_explicit_region_files_wrong :
  forall m sc, In m explicit_methods -> erk_get_coefficients (T := R) m = Ok sc ->
  (exists g, grows_by (length (sc_b sc)) (mentry (sc_A sc)) (ventry (sc_b sc)) (- (1 / 2), 0) g) /\
  forall g, grows_by (length (sc_b sc)) (mentry (sc_A sc)) (ventry (sc_b sc)) (- (1 / 2), 0) g -> 0 < g < 1.
Proof. exact explicit_not_one. Qed.
Print Assumptions C94_explicit_region_files_wrong.
Example C94_example : In ("RUNGE_KUTTA_4"%string, RUNGE_KUTTA_4) erk_methods /\ (In ("GAUSS_LEGENDRE_63"%string, 241%Z) irk_methods /\ ~ In 241%Z implicit_methods).
Proof. split; [cbn; tauto|]. split; [cbn; tauto|]. cbn. intros H. repeat (destruct H as [H|H]; [discriminate H|]). exact H. Qed.

(** C95.  How the program ends: without an argument it writes nothing and returns -1; for a name that is no method it dies with
    std::logic_error before writing a line; for an explicit method with embedded weights it returns 0 and the third file shows the
    stability polynomials of both formulas; for the explicit methods without embedded weights and for backward Euler it dies with
    std::logic_error in the third, respectively the second file. *)
Theorem C95_stability_program :
  forall (CA : CxAlg R) (HC : ExactCx CA) (HE : Env R),
  stab_main None = (([], [], []), Ok (-1)%Z) /\
  (forall name, ~ In name (map fst irk_methods) -> ~ In name (map fst erk_methods) -> stab_main (Some name) = (([], [], []), Err (EThrow ELogic))) /\
  (forall name m sc, In (name, m) erk_methods -> erk_get_coefficients m = Ok sc -> In m explicit_embedded ->
     stab_main (Some name) = ((region_lines (fun _ _ => 1), region_lines (fun _ _ => 1),
       Heading :: map (fun x => Nums [x; Rabs (stability (length (sc_b sc)) (mentry (sc_A sc)) (ventry (sc_b sc)) x);
                                         Rabs (stability (length (sc_b sc)) (mentry (sc_A sc)) (ventry (sc_b2 sc)) x)]) limit_points), Ok 0%Z)) /\
  (forall name m, In (name, m) erk_methods -> ~ In m explicit_embedded ->
     stab_main (Some name) = ((region_lines (fun _ _ => 1), region_lines (fun _ _ => 1), [Heading]), Err (EThrow ELogic))) /\
  stab_main (Some "IMPLICIT_EULER"%string) = ((region_lines (fun x y => / sqrt ((1 - x) * (1 - x) + y * y)), [], []), Err (EThrow ELogic)).
Proof. exact (fun CA HC HE => @main_cases CA HC HE). Qed.
Print Assumptions C95_stability_program.
Example C95_example : In ("EXPLICIT_EULER"%string, EXPLICIT_EULER) erk_methods /\ ~ In EXPLICIT_EULER explicit_embedded.
Proof. split; [cbn; tauto|]. cbn. intros H. repeat (destruct H as [H|H]; [discriminate H|]). exact H. Qed.
