(** Other units, signs and order of the variables, another unit and origin of time. *)
From Coq Require Import Reals.
From Verif Require Import Model.Base Model.LinAlg Model.Options Model.Erk Spec.Sums.
Local Open Scope R_scope.

(** pi reorders 0, ..., n-1 *)
Definition reorders (n : nat) (pi : nat -> nat) : Prop :=
  (forall q, (q < n)%nat -> (pi q < n)%nat) /\ forall p q, (p < n)%nat -> (q < n)%nat -> pi p = pi q -> p = q.
(** variable q of the new state is u_q times variable pi_q of the old one *)
Definition in_units (n : nat) (pi : nat -> nat) (u : nat -> R) (y : list R) : list R := vtab n (fun q => u q * ventry y (pi q)).
(** G is the right-hand side of z(a t + s) = in_units (y(t)) if F is that of y; it fails when F does and has the same hidden state. *)
Definition restated {St} (n : nat) (pi : nat -> nat) (u : nat -> R) (a s : R) (F G : functor R St) : Prop :=
  forall t y st, length y = n ->
  match f_fun F t y st with
  | (st', Ok v) => length v = n /\ f_fun G (a * t + s) (in_units n pi u y) st = (st', Ok (map (fun x => x / a) (in_units n pi u v)))
  | (st', Err e) => f_fun G (a * t + s) (in_units n pi u y) st = (st', Err e)
  end.
(** the options in the new units: the absolute tolerance is a length of the state, the step limit a time *)
Definition options_in_units (mu a : R) (o : erk_options R) : erk_options R :=
  ErkOptions (eo_adaptive o) (eo_rel_tol o) (mu * eo_abs_tol o) (a * eo_max_dt o) (eo_max_steps o).
