(** Linear multistep methods (Hairer, Norsett, Wanner, Solving ODEs I, III.1 and III.2). *)
From Coq Require Import Reals.
From Verif Require Import Model.Base Model.Scalar Model.LinAlg Model.Enums Model.Options Model.Irk Model.Multistep Spec.Sums Spec.RkSpec Spec.NewtonSpec Spec.IrkSpec.

Section Grid.
  Context {T : Type} `{Scalar T}.
  (** the time reached from [t] by adding [h] i times *)
  Fixpoint gtime (t h : T) (i : nat) : T := match i with O => t | S i => (gtime t h i +. h)%sc end.
  (** the first n of them *)
  Definition grid (n : nat) (t h : T) : list T := map (gtime t h) (seq 0 n).
  (** the step size used: the given one, or the whole interval if the given one does not fit *)
  Definition fitted_step (t0 t1 dt : T) : T := if (t0 +. dt >?. t1)%sc then (t1 -. t0)%sc else dt.
End Grid.

(** The starting integrator (irk::odeint with LOBATTO_IIIC_85, the options and first step size of multistep.hpp:119-138) returns
    from [y0], from any time, over an interval of length h. *)
Definition starter_returns {T} `{Scalar T} `{LinAlg T} `{Env T} {St} (F : functor T St) (h : T) (y0 : list T) : Prop :=
  forall t w, exists fuel w' sol,
  irk_odeint fuel F t (t +. h)%sc y0 bootstrap_options bootstrap_output LOBATTO_IIIC_85 (slit 1 (-6)) w = (w', Ok sol).

Local Open Scope R_scope.

(** Adams-Bashforth:  y_{n+1} = y_n + h sum_{j<k} ab_weight k j * f_{n-j} *)
Definition ab_table : list (list R) :=
  [ [1];
    [3/2; -1/2];
    [23/12; -16/12; 5/12];
    [55/24; -59/24; 37/24; -9/24];
    [1901/720; -2774/720; 2616/720; -1274/720; 251/720] ].
Definition ab_weight (k j : nat) : R := nth j (nth (k - 1) ab_table []) 0.
(** BDF:  y_{n+1} + sum_{j<k} bdf_weight k j * y_{n-j} = h * bdf_beta k * f_{n+1} *)
Definition bdf_table : list (list R) :=
  [ [-1];
    [-4/3; 1/3];
    [-18/11; 9/11; -2/11];
    [-48/25; 36/25; -16/25; 3/25];
    [-300/137; 300/137; -200/137; 75/137; -12/137];
    [-360/147; 450/147; -400/147; 225/147; -72/147; 10/147] ].
Definition bdf_weight (k j : nat) : R := nth j (nth (k - 1) bdf_table []) 0.
Definition bdf_beta (k : nat) : R := nth (k - 1) [1; 2/3; 6/11; 12/25; 60/137; 60/147] 0.

(** derivative of [poly d cf] *)
Definition dpoly (d : nat) (cf : nat -> R) (t : R) : R := Rsum d (fun j => cf j * (INR j * t ^ (j - 1))).
(** The k-step formula reproduces every polynomial of degree at most d, whatever the time and the step. *)
Definition ab_exact (k d : nat) : Prop := forall cf t h,
  poly (S d) cf (t + h) = poly (S d) cf t + h * Rsum k (fun j => ab_weight k j * dpoly (S d) cf (t - INR j * h)).
Definition bdf_exact (k d : nat) : Prop := forall cf t h,
  poly (S d) cf (t + h) + Rsum k (fun j => bdf_weight k j * poly (S d) cf (t - INR j * h)) = h * bdf_beta k * dpoly (S d) cf (t + h).

(** Value number i in a list of recorded values. *)
Definition yval (ys : list (list R)) (i : nat) : list R := nth i ys [].

(** Recorded value number i is obtained from the k values before it by the k-step Adams-Bashforth combination of slopes,
    all of them taken at the time [t] of the value before it. *)
Definition ab_step_at_one_time (n k : nat) (f : R -> list R -> list R) (t h : R) (ys : list (list R)) (i : nat) : Prop :=
  length (yval ys i) = n /\
  forall p, (p < n)%nat ->
    ventry (yval ys i) p = ventry (yval ys (i - 1)) p +
      h * Rsum k (fun j => ab_weight k j * ventry (f t (yval ys (i - 1 - j))) p).

(** What is left of the BDF equation for value number i, time [t], at the point [y]. *)
Definition bdf_residual (k : nat) (f : R -> list R -> list R) (t h : R) (ys : list (list R)) (i : nat) (y : list R) (p : nat) : R :=
  ventry y p + Rsum k (fun j => bdf_weight k j * ventry (yval ys (i - 1 - j)) p) - h * bdf_beta k * ventry (f t y) p.
(** the matrix 1 - c J *)
Definition bdf_matrix (n : nat) (c : R) (J : mat R) : mat R := mtab n n (fun p q => delta p q - c * mentry J p q).
(** One Newton step for the BDF equation: from [x] to [x'], with increment [e]. *)
Definition bdf_newton_step {St} (F : functor R St) (n k : nat) (f : R -> list R -> list R) (t h : R) (ys : list (list R)) (i : nat)
  (x x' e : list R) : Prop :=
  length x = n /\ length e = n /\ length x' = n /\
  exists J, jac_answers F t x J /\ nrows J = n /\ ncols J = n /\
    (forall p, (p < n)%nat -> ventry e p - h * bdf_beta k * Rsum n (fun q => mentry J p q * ventry e q) = - bdf_residual k f t h ys i x p) /\
    forall p, (p < n)%nat -> ventry x' p = ventry x p + ventry e p.
(** The points [xs] and increments [es] of a Newton iteration for value number i (time t0 + i*h), started at the value before. *)
Definition bdf_iteration {St} (F : functor R St) (n k : nat) (f : R -> list R -> list R) (t0 h : R) (ys : list (list R)) (i : nat)
  (xs es : list (list R)) : Prop :=
  length xs = S (length es) /\ nth 0 xs [] = yval ys (i - 1) /\
  forall l, (l < length es)%nat -> bdf_newton_step F n k f (t0 + INR i * h) h ys i (nth l xs []) (nth (S l) xs []) (nth l es []).
