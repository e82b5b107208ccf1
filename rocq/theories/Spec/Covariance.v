(** Changes of variables and superposition. *)
From Coq Require Import Reals.
From Verif Require Import Model.Base Model.LinAlg Spec.Sums.
Local Open Scope R_scope.

(** v + M y and M y, for the n' x n matrix M *)
Definition affine_map (n n' : nat) (M : nat -> nat -> R) (v : nat -> R) (y : list R) : list R :=
  vtab n' (fun q => v q + Rsum n (fun p => M q p * ventry y p)).
Definition linear_map (n n' : nat) (M : nat -> nat -> R) (y : list R) : list R :=
  vtab n' (fun q => Rsum n (fun p => M q p * ventry y p)).
(** al x + be y *)
Definition combination (n : nat) (al be : R) (x y : list R) : list R := vtab n (fun q => al * ventry x q + be * ventry y q).

(** If y solves y' = f(t, y) then z(a t + s) = v + M y(t) solves z' = g(t, z): time is scaled by a and shifted by s. *)
Definition conjugate (n n' : nat) (M : nat -> nat -> R) (v : nat -> R) (a s : R) (f g : R -> list R -> list R) : Prop :=
  forall t y, length y = n -> g (a * t + s) (affine_map n n' M v y) = map (fun x => x / a) (linear_map n n' M (f t y)).
(** If x' = f(t, x) and y' = g(t, y) then z = al x + be y solves z' = h(t, z). *)
Definition superposes (n : nat) (al be : R) (f g h : R -> list R -> list R) : Prop :=
  forall t x y, length x = n -> length y = n -> h t (combination n al be x y) = combination n al be (f t x) (g t y).
