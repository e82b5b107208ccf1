(** Smooth right-hand sides and solutions, for statements about the convergence of the integrators. *)
From Coq Require Import Reals.
From Verif Require Import Model.Base Model.LinAlg Spec.Sums Spec.IrkSpec.
Local Open Scope R_scope.

(** phi solves y' = f(t,y) on [t0,t1] (n components). *)
Definition solves (n : nat) (f : R -> list R -> list R) (t0 t1 : R) (phi : R -> list R) : Prop :=
  (forall t, length (phi t) = n) /\
  forall t i, t0 <= t <= t1 -> (i < n)%nat -> derivable_pt_lim (fun u => ventry (phi u) i) t (ventry (f t (phi t)) i).

(** A point (t, y_0, ..., y_(n-1)) of the space on which f is defined, as a function: x 0 is the time and x (S i) is
    component i.  Component q of f there: *)
Definition rhs_at (n : nat) (f : R -> list R -> list R) (x : nat -> R) (q : nat) : R :=
  ventry (f (x O) (vtab n (fun i => x (S i)))) q.

(** The points within r of the graph of phi over [t0,t1]. *)
Definition tube (n : nat) (r t0 t1 : R) (phi : R -> list R) (x : nat -> R) : Prop :=
  exists t, t0 <= t <= t1 /\ Rabs (x O - t) <= r /\ forall i, (i < n)%nat -> Rabs (x (S i) - ventry (phi t) i) <= r.

(** f has partial derivatives of orders 1..p (in t and in the components of y) on U, bounded there, like f itself, by M:
    [df [i1;...;im] x q] is the partial derivative of component q in the directions i1,...,im at x, and the directional
    derivative of each [df l] of order below p is the sum of its partial derivatives. *)
Definition derivatives_bounded (p n : nat) (M : R) (U : (nat -> R) -> Prop) (f : R -> list R -> list R)
  (df : list nat -> (nat -> R) -> nat -> R) : Prop :=
  (forall x q, (q < n)%nat -> df [] x q = rhs_at n f x q) /\
  (forall l x v s q, (length l < p)%nat -> (q < n)%nat -> U (fun i => x i + s * v i) ->
     derivable_pt_lim (fun s => df l (fun i => x i + s * v i) q) s
       (Rsum (S n) (fun i => v i * df (i :: l) (fun i => x i + s * v i) q))) /\
  (forall l x q, (length l <= p)%nat -> (q < n)%nat -> U x -> Rabs (df l x q) <= M).

(** f is p times differentiable, with bounded derivatives, within r of the graph of phi. *)
Definition smooth_near (p n : nat) (r t0 t1 : R) (f : R -> list R -> list R) (phi : R -> list R) : Prop :=
  exists M df, derivatives_bounded p n M (tube n r t0 t1 phi) f df.

(** Consecutive entries differ by at most H. *)
Definition steps_at_most (H : R) (ts : list R) : Prop :=
  forall k, (S k < length ts)%nat -> nth (S k) ts 0 - nth k ts 0 <= H.

(** f is Lipschitz in y, uniformly for t in [t0,t1]: states within e of each other have slopes within L e. *)
Definition lipschitz_in (n : nat) (L t0 t1 : R) (f : R -> list R -> list R) : Prop :=
  forall t y z e, t0 <= t <= t1 -> length y = n -> length z = n -> (forall i, (i < n)%nat -> Rabs (ventry y i - ventry z i) <= e) ->
  forall q, (q < n)%nat -> Rabs (ventry (f t y) q - ventry (f t z) q) <= L * e.
(** The entries of every matrix the functor returns as a Jacobian at a time in [t0,t1] are at most L. *)
Definition jac_bounded {St} (F : functor R St) (n : nat) (L t0 t1 : R) : Prop :=
  forall t y J, t0 <= t <= t1 -> length y = n -> jac_answers F t y J -> forall i j, (i < n)%nat -> (j < n)%nat -> Rabs (mentry J i j) <= L.

(** The slope of phi is bounded by K, and changes at a rate of at most M. *)
Definition slopes_steady (n : nat) (K M t0 t1 : R) (f : R -> list R -> list R) (phi : R -> list R) : Prop :=
  forall s t q, t0 <= s <= t1 -> t0 <= t <= t1 -> (q < n)%nat ->
  Rabs (ventry (f t (phi t)) q) <= K /\ Rabs (ventry (f t (phi t)) q - ventry (f s (phi s)) q) <= M * Rabs (t - s).
