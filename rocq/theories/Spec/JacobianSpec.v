(** Finite-difference Jacobi matrices: what they should be. *)
From Coq Require Import Reals.
From Verif Require Import Model.Base Model.Scalar Model.LinAlg Spec.Sums Spec.NewtonSpec.

Section Generic.
  Context {T : Type} `{Scalar T}.
  (** The points at which a central difference in direction [j] evaluates. *)
  Definition plus_h (y : list T) (h : T) (j : nat) : list T := list_set y j (nth j y (sZ 0) +. h)%sc.
  Definition minus_h (y : list T) (h : T) (j : nat) : list T := list_set y j (nth j y (sZ 0) -. h)%sc.
  (** The matrix of central differences of [f] at [y]. *)
  Definition central_differences (f : list T -> list T) (y : list T) (h : T) : mat T :=
    mtab (length y) (length y) (fun i j =>
      ((nth i (f (plus_h y h j)) (sZ 0) -. nth i (f (minus_h y h j)) (sZ 0)) /. (slit 2 0 *. h))%sc).
  (** The points visited: [y], then forwards and backwards along each coordinate. *)
  Definition difference_points (y : list T) (h : T) : list (list T) :=
    y :: flat_map (fun j => [plus_h y h j; minus_h y h j]) (seq 0 (length y)).
End Generic.

Local Open Scope R_scope.
(** A quadratic map from R^n to R^n: constants [c], linear part [l], quadratic part [q]. *)
Definition quadratic_map (n : nat) (c : nat -> R) (l : nat -> nat -> R) (q : nat -> nat -> nat -> R) (y : list R) : list R :=
  vtab n (fun i => c i + Rsum n (fun k => l i k * ventry y k) + Rsum n (fun k => Rsum n (fun m => q i k m * (ventry y k * ventry y m)))).
(** Its partial derivative of component [i] with respect to coordinate [j]. *)
Definition quadratic_partial (n : nat) (l : nat -> nat -> R) (q : nat -> nat -> nat -> R) (y : list R) (i j : nat) : R :=
  l i j + Rsum n (fun m => (q i j m + q i m j) * ventry y m).

(** Component [i] of [f] as a function of coordinate [j] alone. *)
Definition along (f : list R -> list R) (y : list R) (i j : nat) (u : R) : R := ventry (f (list_set y j u)) i.
