(** Linear problems for the BDF solver. *)
From Coq Require Import Reals.
From Verif Require Import Model.Base Model.Scalar Model.LinAlg Spec.Sums Spec.Observe Spec.NewtonSpec Spec.IrkSpec Spec.MultistepSpec.
Local Open Scope R_scope.

(** the right-hand side y' = A(t) y + g(t) *)
Definition affine_rhs (n : nat) (A : R -> nat -> nat -> R) (g : R -> nat -> R) (t : R) (y : list R) : list R :=
  vtab n (fun p => Rsum n (fun q => A t p q * ventry y q) + g t p).
(** The functor computes it, and all its answers about the Jacobian are A(t). *)
Definition affine_problem {St} (F : functor R St) (n : nat) (A : R -> nat -> nat -> R) (g : R -> nat -> R) : Prop :=
  computes F (affine_rhs n A g) /\
  forall t y J, jac_answers F t y J -> nrows J = n /\ ncols J = n /\ mat_wf J /\ forall p q, (p < n)%nat -> (q < n)%nat -> mentry J p q = A t p q.
(** The matrices 1 - c A(t) are invertible. *)
Definition bdf_solvable (n : nat) (c : R) (A : R -> nat -> nat -> R) : Prop := forall t, invertible (bdf_matrix n c (mtab n n (A t))).
