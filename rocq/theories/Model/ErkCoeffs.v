(** erk.cpp: the explicit Butcher tableaux.  Every coefficient is the source expression, evaluated in the
    abstract arithmetic; a negated literal such as [-8.0] is read as a negative literal (exact in binary64).
    Entries of a matrix set to zero by [zeros] and not assigned later are 0. *)
From Verif Require Import Model.Base Model.Scalar Model.LinAlg Model.Enums Model.Coeffs.
Local Open Scope sc_scope.
Local Open Scope mon_scope.

Section ErkCoeffs.
  Context {T : Type} `{Scalar T}.

  (** erk.cpp:12-13 *)
  Definition one_third : T := slit 1 0 /. slit 3 0.
  Definition one_six : T := slit 1 0 /. slit 6 0.

  (** erk.cpp:25-32, case EXPLICIT_EULER *)
  Definition erk_explicit_euler : res (solver_coeffs T) :=
    let gamma := slit 0 0 in
    let A := of_rows (sZ 0)
      [[slit 0 0]] in
    let b := [slit 1 0] in
    let c := [slit 0 0] in
    let b2 := [] in
    Ok (SolverCoeffs b c A b2 (Some 1%Z) (Some 0%Z) false gamma mat_empty).

  (** erk.cpp:34-43, case RUNGE_KUTTA_4 *)
  Definition erk_runge_kutta_4 : res (solver_coeffs T) :=
    let gamma := slit 0 0 in
    let A := of_rows (sZ 0)
      [[slit 0 0; slit 0 0; slit 0 0; slit 0 0];
       [slit 5 (-1); slit 0 0; slit 0 0; slit 0 0];
       [slit 0 0; slit 5 (-1); slit 0 0; slit 0 0];
       [slit 0 0; slit 0 0; slit 1 0; slit 0 0]] in
    let b := [one_six; one_third; one_third; one_six] in
    let c := [slit 0 0; slit 5 (-1); slit 5 (-1); slit 1 0] in
    let b2 := [] in
    Ok (SolverCoeffs b c A b2 (Some 4%Z) (Some 0%Z) false gamma mat_empty).

  (** erk.cpp:46-61, case BOGACKI_SHAMPINE_32 *)
  Definition erk_bogacki_shampine_32 : res (solver_coeffs T) :=
    let gamma := slit 0 0 in
    let A := of_rows (sZ 0)
      [[slit 0 0; slit 0 0; slit 0 0; slit 0 0];
       [slit 5 (-1); slit 0 0; slit 0 0; slit 0 0];
       [slit 0 0; slit 75 (-2); slit 0 0; slit 0 0];
       [slit 2 0 /. slit 9 0; slit 1 0 /. slit 3 0; slit 4 0 /. slit 9 0; slit 0 0]] in
    let b := [slit 2 0 /. slit 9 0; slit 1 0 /. slit 3 0; slit 4 0 /. slit 9 0; slit 0 0] in
    let c := [slit 0 0; slit 5 (-1); slit 75 (-2); slit 1 0] in
    let b2 := [slit 7 0 /. slit 24 0; slit 25 (-2); slit 1 0 /. slit 3 0; slit 1 0 /. slit 8 0] in
    Ok (SolverCoeffs b c A b2 (Some 3%Z) (Some 2%Z) true gamma mat_empty).

  (** erk.cpp:63-109, case CASH_KARP_54 *)
  Definition erk_cash_karp_54 : res (solver_coeffs T) :=
    let gamma := slit 0 0 in
    let A := of_rows (sZ 0)
      [[slit 0 0; slit 0 0; slit 0 0; slit 0 0; slit 0 0; slit 0 0];
       [slit 1 0 /. slit 5 0; slit 0 0; slit 0 0; slit 0 0; slit 0 0; slit 0 0];
       [slit 3 0 /. slit 40 0; slit 9 0 /. slit 40 0; slit 0 0; slit 0 0; slit 0 0; slit 0 0];
       [slit 3 0 /. slit 10 0;
        slit (-9) 0 /. slit 10 0;
        slit 6 0 /. slit 5 0;
        slit 0 0;
        slit 0 0;
        slit 0 0];
       [slit (-11) 0 /. slit 54 0;
        slit 5 0 /. slit 2 0;
        slit (-70) 0 /. slit 27 0;
        slit 35 0 /. slit 27 0;
        slit 0 0;
        slit 0 0];
       [slit 1631 0 /. slit 55296 0;
        slit 175 0 /. slit 512 0;
        slit 575 0 /. slit 13824 0;
        slit 44275 0 /. slit 110592 0;
        slit 253 0 /. slit 4096 0;
        slit 0 0]] in
    let b := [slit 37 0 /. slit 378 0;
              slit 0 0;
              slit 250 0 /. slit 621 0;
              slit 125 0 /. slit 594 0;
              slit 0 0;
              slit 512 0 /. slit 1771 0] in
    let c := [slit 0 0; slit 2 (-1); slit 3 (-1); slit 6 (-1); slit 1 0; slit 7 0 /. slit 8 0] in
    let b2 := [slit 2825 0 /. slit 27648 0;
               slit 0 0;
               slit 18575 0 /. slit 48384 0;
               slit 13525 0 /. slit 55296 0;
               slit 277 0 /. slit 14336 0;
               slit 1 0 /. slit 4 0] in
    Ok (SolverCoeffs b c A b2 (Some 5%Z) (Some 4%Z) false gamma mat_empty).

  (** erk.cpp:110-164, case DORMAND_PRINCE_54 *)
  Definition erk_dormand_prince_54 : res (solver_coeffs T) :=
    let gamma := slit 0 0 in
    let A := of_rows (sZ 0)
      [[slit 0 0; slit 0 0; slit 0 0; slit 0 0; slit 0 0; slit 0 0; slit 0 0];
       [slit 1 0 /. slit 5 0; slit 0 0; slit 0 0; slit 0 0; slit 0 0; slit 0 0; slit 0 0];
       [slit 3 0 /. slit 40 0;
        slit 9 0 /. slit 40 0;
        slit 0 0;
        slit 0 0;
        slit 0 0;
        slit 0 0;
        slit 0 0];
       [slit 44 0 /. slit 45 0;
        slit (-56) 0 /. slit 15 0;
        slit 32 0 /. slit 9 0;
        slit 0 0;
        slit 0 0;
        slit 0 0;
        slit 0 0];
       [slit 19372 0 /. slit 6561 0;
        slit (-25360) 0 /. slit 2187 0;
        slit 64448 0 /. slit 6561 0;
        slit (-212) 0 /. slit 729 0;
        slit 0 0;
        slit 0 0;
        slit 0 0];
       [slit 9017 0 /. slit 3168 0;
        slit (-355) 0 /. slit 33 0;
        slit 46732 0 /. slit 5247 0;
        slit 49 0 /. slit 176 0;
        slit (-5103) 0 /. slit 18656 0;
        slit 0 0;
        slit 0 0];
       [slit 35 0 /. slit 384 0;
        slit 0 0;
        slit 500 0 /. slit 1113 0;
        slit 125 0 /. slit 192 0;
        slit (-2187) 0 /. slit 6784 0;
        slit 11 0 /. slit 84 0;
        slit 0 0]] in
    let b := [slit 35 0 /. slit 384 0;
              slit 0 0;
              slit 500 0 /. slit 1113 0;
              slit 125 0 /. slit 192 0;
              slit (-2187) 0 /. slit 6784 0;
              slit 11 0 /. slit 84 0;
              slit 0 0] in
    let c := [slit 0 0;
              slit 2 (-1);
              slit 3 (-1);
              slit 8 (-1);
              slit 8 0 /. slit 9 0;
              slit 1 0;
              slit 1 0] in
    let b2 := [slit 5179 0 /. slit 57600 0;
               slit 0 0;
               slit 7571 0 /. slit 16695 0;
               slit 393 0 /. slit 640 0;
               slit (-92097) 0 /. slit 339200 0;
               slit 187 0 /. slit 2100 0;
               slit 1 0 /. slit 40 0] in
    Ok (SolverCoeffs b c A b2 (Some 5%Z) (Some 4%Z) true gamma mat_empty).

  (** erk.cpp:166-203, case FEHLBERG_54 *)
  Definition erk_fehlberg_54 : res (solver_coeffs T) :=
    let gamma := slit 0 0 in
    let A := of_rows (sZ 0)
      [[slit 0 0; slit 0 0; slit 0 0; slit 0 0; slit 0 0; slit 0 0];
       [slit 1 0 /. slit 4 0; slit 0 0; slit 0 0; slit 0 0; slit 0 0; slit 0 0];
       [slit 3 0 /. slit 32 0; slit 9 0 /. slit 32 0; slit 0 0; slit 0 0; slit 0 0; slit 0 0];
       [slit 1932 0 /. slit 2197 0;
        slit (-7200) 0 /. slit 2197 0;
        slit 7296 0 /. slit 2197 0;
        slit 0 0;
        slit 0 0;
        slit 0 0];
       [slit 439 0 /. slit 216 0;
        slit (-8) 0;
        slit 3680 0 /. slit 513 0;
        slit (-845) 0 /. slit 4104 0;
        slit 0 0;
        slit 0 0];
       [slit (-8) 0 /. slit 27 0;
        slit 2 0;
        slit (-3544) 0 /. slit 2565 0;
        slit 1859 0 /. slit 4104 0;
        slit (-11) 0 /. slit 40 0;
        slit 0 0]] in
    let b := [slit 16 0 /. slit 135 0;
              slit 0 0;
              slit 6656 0 /. slit 12825 0;
              slit 28561 0 /. slit 56430 0;
              slit (-9) 0 /. slit 50 0;
              slit 2 0 /. slit 55 0] in
    let c := [slit 0 0; slit 25 (-2); slit 375 (-3); slit 12 0 /. slit 13 0; slit 1 0; slit 5 (-1)] in
    let b2 := [slit 25 0 /. slit 216 0;
               slit 0 0;
               slit 1408 0 /. slit 2565 0;
               slit 2197 0 /. slit 4104 0;
               slit (-1) 0 /. slit 5 0;
               slit 0 0] in
    Ok (SolverCoeffs b c A b2 (Some 5%Z) (Some 4%Z) false gamma mat_empty).

  (** erk.cpp:20-205, the switch.  [default]: only FSAL, name and gamma are set (erk.cpp:15-17). *)
  Definition erk_table (method : Z) : res (solver_coeffs T) :=
    if (method =? EXPLICIT_EULER)%Z then erk_explicit_euler
    else if (method =? RUNGE_KUTTA_4)%Z then erk_runge_kutta_4
    else if (method =? BOGACKI_SHAMPINE_32)%Z then erk_bogacki_shampine_32
    else if (method =? CASH_KARP_54)%Z then erk_cash_karp_54
    else if (method =? DORMAND_PRINCE_54)%Z then erk_dormand_prince_54
    else if (method =? FEHLBERG_54)%Z then erk_fehlberg_54
    else Ok unsupported_coeffs.

  (** erk.cpp:9-221, get_coefficients.  The name (a registry lookup, see Enums.v) is not part of the record. *)
  Definition erk_get_coefficients (method : Z) : res (solver_coeffs T) :=
    sc <-- erk_table method ;;
    _ <-- coeff_warnings sc ;;
    Ok sc.

  (** erk.cpp:237-256, verify_solver_coeffs.  The entries are read in order and the first nonzero one on or
      above the diagonal rejects. *)
  Definition erk_verify_solver_coeffs (sc : solver_coeffs T) : bool :=
    let N := length (sc_b sc) in
    if negb ((N =? length (sc_c sc)) && (N =? nrows (sc_A sc)) && (N =? ncols (sc_A sc))) then false
    else if N =? 0 then false
    else forallb (fun i => forallb (fun j => nth i (nth j (mcols (sc_A sc)) []) (sZ 0) ==?. slit 0 0)
                                   (seq i (N - i)))
                 (seq 0 N).
End ErkCoeffs.
