(** Nonlinear problems whose solutions do not move apart. *)
From Coq Require Import Reals.
From Verif Require Import Model.Base Model.LinAlg Spec.Sums.
Local Open Scope R_scope.

(** <f(t, y) - f(t, z), y - z> <= 0 everywhere: the distance of two solutions of y' = f(t, y) does not grow. *)
Definition contractive (n : nat) (f : R -> list R -> list R) : Prop :=
  forall t y z, length y = n -> length z = n -> Rsum n (fun p => (ventry (f t y) p - ventry (f t z) p) * (ventry y p - ventry z p)) <= 0.
