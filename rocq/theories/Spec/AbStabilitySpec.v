(** Components that decay on their own, and the step sizes up to which the Adams-Bashforth formulas reproduce that. *)
From Coq Require Import Reals.
From Verif Require Import Model.Base Model.LinAlg Spec.Sums.
Local Open Scope R_scope.

(** Component q of the solution satisfies y_q' = - lam y_q, whatever the others do. *)
Definition decaying_component (n q : nat) (lam : R) (f : R -> list R -> list R) : Prop :=
  (q < n)%nat /\ forall t y, length y = n -> ventry (f t y) q = - lam * ventry y q.
(** The stability limits of the orders 1 to 5 on the negative real axis (Hairer, Wanner, Solving ODEs II, V.1). *)
Definition ab_limit (k : nat) : R := nth (k - 1) [2; 1; 6/11; 3/10; 90/551] 0.
