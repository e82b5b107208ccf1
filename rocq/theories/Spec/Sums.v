(** Specification vocabulary: finite sums and products of reals, matrix entries, and what it means for the
    linear-algebra kernels to be exact. *)
From Coq Require Import Reals.
From Verif Require Import Model.Base Model.Scalar Model.LinAlg.
Local Open Scope R_scope.

(** sum_{i<n} f i *)
Fixpoint Rsum (n : nat) (f : nat -> R) : R :=
  match n with O => 0 | S m => Rsum m f + f m end.
(** prod_{i<n} f i *)
Fixpoint Rprod (n : nat) (f : nat -> R) : R :=
  match n with O => 1 | S m => Rprod m f * f m end.

Definition ventry (x : list R) (i : nat) : R := nth i x 0.
Definition mentry (A : mat R) (i j : nat) : R := nth i (nth j (mcols A) []) 0.

(** A matrix value is well formed when each column has as many entries as there are rows (every arma::mat is). *)
Definition mat_wf {T} (A : mat T) : Prop := Forall (fun c => length c = nrows A) (mcols A).

(** A x = b *)
Definition is_solution (A : mat R) (x b : list R) : Prop :=
  length x = ncols A /\ length b = nrows A /\
  forall i, (i < nrows A)%nat -> Rsum (ncols A) (fun j => mentry A i j * ventry x j) = ventry b i.

(** The products are the exact ones. *)
Class ExactProducts (LA : LinAlg R) : Prop := {
  exact_mv : forall A x i, (i < nrows A)%nat -> length x = ncols A ->
    la_mv A x i = Rsum (ncols A) (fun j => mentry A i j * ventry x j);
  exact_mm : forall A B i j, (i < nrows A)%nat -> (j < ncols B)%nat -> ncols A = nrows B ->
    la_mm A B i j = Rsum (ncols A) (fun k => mentry A i k * mentry B k j);
  exact_dot : forall x y, length x = length y ->
    la_dot x y = Rsum (length x) (fun i => ventry x i * ventry y i);
}.
