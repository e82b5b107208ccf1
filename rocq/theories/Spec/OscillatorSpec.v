(** Undamped oscillations inside a problem, and what a step of the explicit methods does to their energy. *)
From Coq Require Import Reals.
From Verif Require Import Model.Base Model.LinAlg Model.Enums Spec.Sums.
Local Open Scope R_scope.

(** The components p and q satisfy y_p' = w y_q, y_q' = - w y_p, whatever the others do: y_p^2 + y_q^2 is constant along solutions. *)
Definition oscillating_pair (n p q : nat) (w : R) (f : R -> list R -> list R) : Prop :=
  (p < n)%nat /\ (q < n)%nat /\ forall t y, length y = n -> ventry (f t y) p = w * ventry y q /\ ventry (f t y) q = - w * ventry y p.
Definition energy (p q : nat) (y : list R) : R := ventry y p ^ 2 + ventry y q ^ 2.
(** |R(i mu)|^2 as a function of x = mu^2, for the stability function R of each explicit method *)
Definition oscillator_factors : list (Z * (R -> R)) :=
  [(EXPLICIT_EULER, fun x => 1 + x);
   (RUNGE_KUTTA_4, fun x => 1 - x ^ 3 / 72 + x ^ 4 / 576);
   (BOGACKI_SHAMPINE_32, fun x => 1 - x ^ 2 / 12 + x ^ 3 / 36);
   (CASH_KARP_54, fun x => 1 + x ^ 3 / 3600 + x ^ 4 / 4800 - x ^ 5 / 28800 + x ^ 6 / 640000);
   (DORMAND_PRINCE_54, fun x => 1 - x ^ 3 / 1800 + x ^ 4 / 1600 - x ^ 5 / 14400 + x ^ 6 / 360000);
   (FEHLBERG_54, fun x => 1 + x ^ 3 * 17 / 9360 - x ^ 4 * 7 / 12480 + x ^ 5 * 11 / 374400 + x ^ 6 / 4326400)].
(** (w h)^2 up to which a step does not gain energy *)
Definition oscillator_stable : list (Z * R) := [(RUNGE_KUTTA_4, 8); (BOGACKI_SHAMPINE_32, 3); (DORMAND_PRINCE_54, 99 / 100)].
(** the range of (w h)^2 in which every step gains energy (the upper end for FEHLBERG_54 only) *)
Definition oscillator_unstable (m : Z) (x : R) : Prop :=
  (m = EXPLICIT_EULER /\ 0 < x) \/ (m = CASH_KARP_54 /\ 0 < x) \/ (m = RUNGE_KUTTA_4 /\ 8 < x) \/ (m = BOGACKI_SHAMPINE_32 /\ 3 < x) \/
  (m = DORMAND_PRINCE_54 /\ 1 < x) \/ (m = FEHLBERG_54 /\ 0 < x <= 4).
