(** The Butcher tableau record shared by erk:: and irk:: and the consistency warning of get_coefficients. *)
From Verif Require Import Model.Base Model.Scalar Model.LinAlg.
Local Open Scope sc_scope.
Local Open Scope mon_scope.

(** irk.hpp:68-89 and erk.hpp:65-86, struct solver_coeffs (two structs with the same fields).  [order] and
    [order2] are plain ints without initialiser: [None] while nothing was assigned. *)
Record solver_coeffs (T : Type) := SolverCoeffs {
  sc_b : list T;
  sc_c : list T;
  sc_A : mat T;
  sc_b2 : list T;
  sc_order : option Z;
  sc_order2 : option Z;
  sc_FSAL : bool;
  sc_gamma : T;
  sc_b_interp : mat T
}.
Arguments SolverCoeffs {T}.
Arguments sc_b {T}. Arguments sc_c {T}. Arguments sc_A {T}. Arguments sc_b2 {T}.
Arguments sc_order {T}. Arguments sc_order2 {T}. Arguments sc_FSAL {T}. Arguments sc_gamma {T}.
Arguments sc_b_interp {T}.

Section Coeffs.
  Context {T : Type} `{Scalar T}.

  (** What [get_coefficients] returns for an unknown id: empty vectors, gamma = 0 (irk.cpp:229-237,
      erk.cpp:15-23). *)
  Definition unsupported_coeffs : solver_coeffs T :=
    SolverCoeffs [] [] mat_empty [] None None false (slit 0 0) mat_empty.

  (** irk.cpp:674-686, erk.cpp:206-218: the rows for which the mismatch warning is printed.  [sc.A(i,j)] out of
      range throws. *)
  Definition coeff_warnings (sc : solver_coeffs T) : res (list nat) :=
    foldR (fun i ws =>
             ci <-- vget (sc_c sc) i ;;
             si <-- foldR (fun j s => a <-- mget (sc_A sc) i j ;; Ok (s +. a))
                          (seq 0 (length (sc_c sc))) (slit 0 0) ;;
             Ok (if sabs (si -. ci) >?. slit 1 (-5) then ws ++ [i] else ws))
          (seq 0 (length (sc_c sc))) [].
End Coeffs.
