(** Problems on which irk::odeint cannot fail. *)
From Coq Require Import Reals.
From Verif Require Import Model.Base Model.Scalar Model.LinAlg Model.Options Model.Newton Model.Coeffs Model.Irk Spec.Sums Spec.Trees Spec.Observe Spec.NewtonSpec Spec.IrkSpec.
Local Open Scope R_scope.

(** The Jacobian always returns an n x n matrix for states of dimension n. *)
Definition returns_jac {T St} (F : functor T St) (n : nat) : Prop :=
  forall t y s, length y = n -> exists s' J, f_jac F t y s = (s', Ok J) /\ nrows J = n /\ ncols J = n /\ mat_wf J.
(** the n x n matrix 1 - c J *)
Definition one_minus (n : nat) (c : R) (J : mat R) : mat R := mtab n n (fun p q => delta p q - c * mentry J p q).
(** The linear systems of the method with coefficients [sc] are all solvable for steps up to hmax: those of the stage equations
    and those of the error estimate. *)
Definition solvable_up_to {St} (F : functor R St) (n : nat) (sc : solver_coeffs R) (hmax : R) : Prop :=
  stage_matrices_invertible F n (length (sc_b sc)) (mfun (sc_A sc)) hmax /\
  forall t y J h, jac_answers F t y J -> nrows J = n -> ncols J = n -> 0 < h <= hmax -> invertible (one_minus n (sc_gamma sc * h) J).
(** Output options that can be used: a non-zero interval, and a stream if lines are to be written. *)
Definition usable_output (oo : output_options) : Prop :=
  output_interval oo <> 0%Z /\ (write_to_file oo = true -> output_stream oo <> None).
(** Right-hand side and Jacobian are bounded in the region [P]: no component of a slope at a point within [rho] of a state in P exceeds B,
    no entry of a Jacobian at a state in P exceeds K. *)
Definition bounded_near {St} (F : functor R St) (n : nat) (P : list R -> Prop) (rho B K : R) : Prop :=
  (forall t y x s s' v p, length y = n -> P y -> length x = n -> (forall q, (q < n)%nat -> Rabs (ventry x q - ventry y q) <= rho) ->
     f_fun F t x s = (s', Ok v) -> (p < n)%nat -> Rabs (ventry v p) <= B) /\
  (forall t y J p q, length y = n -> P y -> jac_answers F t y J -> (p < n)%nat -> (q < n)%nat -> Rabs (mentry J p q) <= K).
(** Right-hand side and Jacobian are bounded: no component of a slope exceeds B, no entry of a Jacobian exceeds K. *)
Definition bounded_rhs {St} (F : functor R St) (n : nat) (B K : R) : Prop :=
  (forall t y s s' v p, length y = n -> f_fun F t y s = (s', Ok v) -> (p < n)%nat -> Rabs (ventry v p) <= B) /\
  (forall t y J p q, length y = n -> jac_answers F t y J -> (p < n)%nat -> (q < n)%nat -> Rabs (mentry J p q) <= K).
