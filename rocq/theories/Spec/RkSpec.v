(** Runge-Kutta steps and error measures over the reals (Hairer, Norsett, Wanner, Solving ODEs I, II.1 and II.4). *)
From Coq Require Import Reals.
From Verif Require Import Model.Base Model.LinAlg Spec.Sums Spec.Trees.
Local Open Scope R_scope.

(** y' is obtained from y by one step of size h from time t of the s-stage method (a,b,c) for the system of dimension
    n with right-hand side f; k lists the stage values:
      k_i = f(t + c_i h, y + h sum_j a_ij k_j),   y' = y + h sum_i b_i k_i *)
Definition rk_step (n s : nat) (a : nat -> nat -> R) (b c : nat -> R) (f : R -> list R -> list R)
  (t h : R) (y y' : list R) (k : list (list R)) : Prop :=
  length k = s /\
  (forall i, (i < s)%nat -> length (nth i k []) = n /\
     nth i k [] = f (t + c i * h) (vtab n (fun q => ventry y q + h * Rsum s (fun j => a i j * ventry (nth j k []) q)))) /\
  y' = vtab n (fun q => ventry y q + h * Rsum s (fun i => b i * ventry (nth i k []) q)).

(** Difference of the two embedded formulas: h sum_i (b2_i - b_i) k_i. *)
Definition embedded_difference (n s : nat) (b b2 : nat -> R) (h : R) (k : list (list R)) : list R :=
  vtab n (fun q => h * Rsum s (fun i => (b2 i - b i) * ventry (nth i k []) q)).

(** Root mean square of e weighted with atol + rtol*max(|y|,|y'|). *)
Definition rms_error (n : nat) (atol rtol : R) (y y' e : list R) : R :=
  sqrt (Rsum n (fun q => (ventry e q / (atol + rtol * Rmax (Rabs (ventry y q)) (Rabs (ventry y' q)))) ^ 2) / INR n).

(** Stability polynomial of a method with strictly lower triangular a:
      1 + sum_{m=1}^{s} (b^T a^(m-1) 1) z^m,
    where [power_sums s a m i] is component i of a^m applied to the vector of ones. *)
Fixpoint power_sums (s : nat) (a : nat -> nat -> R) (m i : nat) : R :=
  match m with O => 1 | S m' => Rsum s (fun j => a i j * power_sums s a m' j) end.
Definition stab_coeff (s : nat) (a : nat -> nat -> R) (b : nat -> R) (m : nat) : R :=
  match m with O => 1 | S m' => Rsum s (fun i => b i * power_sums s a m' i) end.
Definition stability (s : nat) (a : nat -> nat -> R) (b : nat -> R) (z : R) : R :=
  Rsum (S s) (fun m => stab_coeff s a b m * z ^ m).

(** sum_{j<d} cf_j t^j and its integral from t0 to t *)
Definition poly (d : nat) (cf : nat -> R) (t : R) : R := Rsum d (fun j => cf j * t ^ j).
Definition poly_integral (d : nat) (cf : nat -> R) (t0 t : R) : R :=
  Rsum d (fun j => cf j * ((t ^ (j + 1) - t0 ^ (j + 1)) / INR (j + 1))).
