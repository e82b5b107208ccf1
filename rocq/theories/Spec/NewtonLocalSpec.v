(** Convergence of an iterative root finder near a root: the vocabulary. *)
From Coq Require Import Reals.
From Coquelicot Require Import Coquelicot.
From Verif Require Import Model.Base Model.Scalar Model.LinAlg Model.Newton Spec.Sums Spec.NewtonSpec.
Local Open Scope R_scope.

(** [x] is within [d] of [z], in every coordinate *)
Definition near (d : R) (z x : list R) : Prop :=
  length x = length z /\ forall i, (i < length z)%nat -> Rabs (ventry x i - ventry z i) <= d.
(** the point z + s (x - z) *)
Definition between (z x : list R) (s : R) : list R :=
  vtab (length z) (fun i => ventry z i + s * (ventry x i - ventry z i)).

(** The system answers, for every vector of length n, with f and J there. *)
Definition answers {St} (F : nfunctor R St) (n : nat) (f : list R -> list R) (J : list R -> mat R) : Prop :=
  (forall x s, length x = n -> exists s', n_fun F x s = (s', Ok (f x)) /\ length (f x) = n) /\
  (forall x s, length x = n -> exists s', n_jac F x s = (s', Ok (J x)) /\ mat_wf (J x) /\ nrows (J x) = n /\ ncols (J x) = n).

(** [z] is a root of f.  Within [rho] of it J is the derivative of f along the rays from [z], with row sums at most [L],
    changes by at most [La] times the distance, and has an inverse with row sums at most [beta]. *)
Record regular_root (f : list R -> list R) (J : list R -> mat R) (z : list R) (rho beta La L : R) : Prop := {
  rr_signs : 0 < rho /\ 0 <= beta /\ 0 <= La /\ 0 <= L;
  rr_root : forall i, (i < length z)%nat -> ventry (f z) i = 0;
  rr_derivative : forall x i s, near rho z x -> (i < length z)%nat -> 0 <= s <= 1 ->
    is_derive (fun u => ventry (f (between z x u)) i) s
      (Rsum (length z) (fun j => mentry (J (between z x s)) i j * (ventry x j - ventry z j)));
  rr_bound : forall x i, near rho z x -> (i < length z)%nat -> Rsum (length z) (fun j => Rabs (mentry (J x) i j)) <= L;
  rr_lipschitz : forall x y d i, near rho z x -> near rho z y -> near d x y -> (i < length z)%nat ->
    Rsum (length z) (fun j => Rabs (mentry (J x) i j - mentry (J y) i j)) <= La * d;
  rr_inverse : forall x, near rho z x ->
    exists B, is_inverse (J x) B /\ forall i, (i < length z)%nat -> Rsum (length z) (fun j => Rabs (mentry B i j)) <= beta
}.
