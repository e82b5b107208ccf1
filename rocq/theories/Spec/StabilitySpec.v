(** Linear problems y' = G y whose solutions do not grow, and norms of states. *)
From Coq Require Import Reals.
From Verif Require Import Model.Base Model.LinAlg Model.Enums Spec.Sums Spec.Observe Spec.IrkSpec.
Local Open Scope R_scope.

(** squared Euclidean norm of the first n components *)
Definition norm2 (n : nat) (y : list R) : R := Rsum n (fun p => ventry y p * ventry y p).
(** the right-hand side y' = G y *)
Definition linear_rhs (n : nat) (G : nat -> nat -> R) (t : R) (y : list R) : list R :=
  vtab n (fun p => Rsum n (fun q => G p q * ventry y q)).
(** every answer of the Jacobian is G *)
Definition jac_is {St} (F : functor R St) (n : nat) (G : nat -> nat -> R) : Prop :=
  forall t y J, jac_answers F t y J -> nrows J = n /\ ncols J = n /\ mat_wf J /\
    forall p q, (p < n)%nat -> (q < n)%nat -> mentry J p q = G p q.
(** <G x, x> <= - mu |x|^2 for every x: every solution of y' = G y satisfies |y(t)| <= exp(- mu (t - s)) |y(s)|.  With mu = 0: no
    solution grows. *)
Definition damped_by (mu : R) (n : nat) (G : nat -> nat -> R) : Prop :=
  forall x : nat -> R, Rsum n (fun p => x p * Rsum n (fun q => G p q * x q)) <= - mu * Rsum n (fun p => x p * x p).
Definition dissipative (n : nat) (G : nat -> nat -> R) : Prop := damped_by 0 n G.
(** The methods irk::odeint can run whose coefficients are closed formulas (the other two are given as decimals), with the last
    of their weights. *)
Definition last_weights : list (Z * R) :=
  [(RADAU_IIA_32, 1 / 4); (RADAU_IIA_53, 1 / 9); (LOBATTO_IIIC_43, 1 / 6); (LOBATTO_IIIC_64, 1 / 12); (LOBATTO_IIIC_85, 1 / 20)].
(** Explicit methods on y' = - d/h y: steps with 0 <= d <= z1 do not grow, steps with z2 < d <= 12 or z3 < d grow.  (The formula of
    Fehlberg does not grow for some d between 12 and 12.025 either.) *)
Definition real_limits : list (Z * R * R * R) :=
  [(EXPLICIT_EULER, 2, 2, 2); (RUNGE_KUTTA_4, 2785 / 1000, 2786 / 1000, 2786 / 1000); (BOGACKI_SHAMPINE_32, 2512 / 1000, 2513 / 1000, 2513 / 1000);
   (CASH_KARP_54, 3734 / 1000, 3735 / 1000, 3735 / 1000); (DORMAND_PRINCE_54, 3306 / 1000, 3307 / 1000, 3307 / 1000); (FEHLBERG_54, 3677 / 1000, 3678 / 1000, 12025 / 1000)].

(** ** Nonlinear problems *)
(** Euclidean distance of the first n components *)
Definition dist (n : nat) (y c : list R) : R := sqrt (Rsum n (fun p => (ventry y p - ventry c p) * (ventry y p - ventry c p))).
(** <f(t, y), y - c> <= 0 everywhere: no solution of y' = f(t, y) moves away from c. *)
Definition attracted_to (n : nat) (f : R -> list R -> list R) (c : list R) : Prop :=
  forall t y, length y = n -> Rsum n (fun p => ventry (f t y) p * (ventry y p - ventry c p)) <= 0.
(** Every answer J of the Jacobian is dissipative, and f(t, x) - f(t, z) differs from J (x - z) by at most kappa |x - z|, for all x and z. *)
Definition jac_error {St} (F : functor R St) (n : nat) (f : R -> list R -> list R) (kappa : R) : Prop :=
  forall t y J, jac_answers F t y J -> dissipative n (mentry J) /\
    forall t' x z, length x = n -> length z = n ->
      dist n (vtab n (fun p => ventry (f t' x) p - ventry (f t' z) p)) (vtab n (fun p => Rsum n (fun q => mentry J p q * (ventry x q - ventry z q)))) <= kappa * dist n x z.
(** Two implicit methods, with a constant that bounds how much unsolved stage equations can add to the distance. *)
Definition radau_growth : list (Z * R) := [(RADAU_IIA_32, 18); (RADAU_IIA_53, 70)].
