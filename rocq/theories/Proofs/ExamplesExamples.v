(** A command line for the examples beside the theorems about the example program. *)
From Coq Require Import Reals Lra String.
From Verif Require Import Model.Base Model.Scalar Model.LinAlg Model.Enums Model.Options Model.TestEquations Model.StabRegion Model.Examples Spec.ExamplesSpec.
Local Open Scope string_scope.
Local Open Scope R_scope.

Definition xp_stof (s : string) : option R := if s =? "0.25" then Some (/ 4) else None.
Definition xp_stoi (s : string) : option Z := if s =? "0" then Some 0%Z else if s =? "1" then Some 1%Z else None.
Definition xp_line : list setting := [SMethod "EXPLICIT_EULER"; SDt "0.25"; SMethod "RUNGE_KUTTA_4"; STiming "0"; SFile "out.dat"].
Lemma xp_readable : Forall (readable xp_stof xp_stoi) xp_line.
Proof. repeat constructor; cbn; discriminate. Qed.
Lemma xp_options : options_of xp_stof xp_stoi xp_line = UserOptions "exponential" "RUNGE_KUTTA_4" (Rlit 0 (-1)) (Rlit 100 (-1)) (/ 4) (Rlit 1 (-5)) (Rlit 1 (-4)) (Some false) 0 "out.dat".
Proof. reflexivity. Qed.
Lemma xp_span : Rlit 0 (-1) < Rlit 100 (-1).
Proof. unfold Rlit. cbn. lra. Qed.
