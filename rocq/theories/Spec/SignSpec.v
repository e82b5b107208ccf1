(** Components that decay (or grow) exponentially inside a problem, and what a step of the explicit methods does to them. *)
From Coq Require Import Reals.
From Verif Require Import Model.Base Model.LinAlg Model.Enums Spec.Sums.
Local Open Scope R_scope.

(** The component p satisfies y_p' = - lam y_p, whatever the others do: it keeps its sign along solutions. *)
Definition decaying_component (n p : nat) (lam : R) (f : R -> list R -> list R) : Prop :=
  (p < n)%nat /\ forall t y, length y = n -> ventry (f t y) p = - lam * ventry y p.
(** the factor of a step of size h as a function of d = lam h: what each method has in place of exp (- d) *)
Definition decay_factors : list (Z * (R -> R)) :=
  [(EXPLICIT_EULER, fun d => 1 - d);
   (RUNGE_KUTTA_4, fun d => 1 - d + d ^ 2 / 2 - d ^ 3 / 6 + d ^ 4 / 24);
   (BOGACKI_SHAMPINE_32, fun d => 1 - d + d ^ 2 / 2 - d ^ 3 / 6);
   (CASH_KARP_54, fun d => 1 - d + d ^ 2 / 2 - d ^ 3 / 6 + d ^ 4 / 24 - d ^ 5 / 120 + d ^ 6 / 800);
   (DORMAND_PRINCE_54, fun d => 1 - d + d ^ 2 / 2 - d ^ 3 / 6 + d ^ 4 / 24 - d ^ 5 / 120 + d ^ 6 / 600);
   (FEHLBERG_54, fun d => 1 - d + d ^ 2 / 2 - d ^ 3 / 6 + d ^ 4 / 24 - d ^ 5 / 120 + d ^ 6 / 2080)].
(** the values of lam h with which a step keeps the sign of the component, and those with which it changes it *)
Definition keeps_sign (m : Z) (d : R) : Prop :=
  m = RUNGE_KUTTA_4 \/ m = CASH_KARP_54 \/ m = DORMAND_PRINCE_54 \/ (m = EXPLICIT_EULER /\ d < 1) \/
  (m = BOGACKI_SHAMPINE_32 /\ d < 1596 / 1000) \/ (m = FEHLBERG_54 /\ (d < 235 / 100 \/ 1202 / 100 < d)).
Definition changes_sign (m : Z) (d : R) : Prop :=
  (m = EXPLICIT_EULER /\ 1 < d) \/ (m = BOGACKI_SHAMPINE_32 /\ 1597 / 1000 < d) \/ (m = FEHLBERG_54 /\ 236 / 100 < d <= 12).
