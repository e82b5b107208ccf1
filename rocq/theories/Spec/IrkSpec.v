(** What a run of the implicit integrator looks like from outside, and the implicit Runge-Kutta step over the reals. *)
From Coq Require Import Reals.
From Verif Require Import Model.Base Model.Scalar Model.LinAlg Spec.Sums Spec.Observe Spec.NewtonSpec.

(** How an attempted step can end. *)
Inductive outcome := NewtonFailed | TooInaccurate | Accepted.
Definition outcome_eqb (a b : outcome) : bool :=
  match a, b with NewtonFailed, NewtonFailed | TooInaccurate, TooInaccurate | Accepted, Accepted => true | _, _ => false end.

(** One attempted step: start time, step size, state at the start, outcome, and (unless Newton's iteration failed) the new
    state it computed, its error estimate and error measure. *)
Record iattempt (T : Type) := IAttempt {
  ia_t : T; ia_dt : T; ia_y : list T; ia_out : outcome; ia_yn : list T; ia_est : list T; ia_err : T }.
Arguments IAttempt {T}. Arguments ia_t {T}. Arguments ia_dt {T}. Arguments ia_y {T}. Arguments ia_out {T}. Arguments ia_yn {T}.
Arguments ia_est {T}. Arguments ia_err {T}.

Definition ended {T} (o : outcome) (l : list (iattempt T)) : list (iattempt T) := filter (fun a => outcome_eqb (ia_out a) o) l.
(** The elements of a list whose number (counted from 1) is a multiple of [k]. *)
Fixpoint every_from {A} (k i : Z) (l : list A) : list A :=
  match l with [] => [] | a :: l => (if (Z.rem i k =? 0)%Z then [a] else []) ++ every_from k (i + 1) l end.
Definition every {A} (k : Z) (l : list A) : list A := every_from k 1 l.

Section Spec.
  Context {T : Type} `{Scalar T}.
  Definition ia_end (a : iattempt T) : T := (ia_t a +. ia_dt a)%sc.
  (** time and state after some attempts *)
  Definition itime_after (t0 : T) (l : list (iattempt T)) : T := last (map ia_end (ended Accepted l)) t0.
  Definition istate_after (y0 : list T) (l : list (iattempt T)) : list T := last (map ia_yn (ended Accepted l)) y0.
  (** every attempt starts where the accepted ones before it ended *)
  Definition ichained (t0 : T) (y0 : list T) (l : list (iattempt T)) : Prop :=
    forall k a, nth_error l k = Some a -> ia_t a = itime_after t0 (firstn k l) /\ ia_y a = istate_after y0 (firstn k l).
End Spec.

(** Component block j of the stacked stages: entries n*j .. n*j+n-1. *)
Definition block {T} (n j : nat) (Y : list T) : list T := firstn n (skipn (n * j) Y).

(** The functor answered [v] to a call of [fun] (in some state). *)
Definition fun_answers {T St} (F : functor T St) (t : T) (y v : list T) : Prop := exists s s', f_fun F t y s = (s', Ok v).
Definition jac_answers {T St} (F : functor T St) (t : T) (y : list T) (J : mat T) : Prop := exists s s', f_jac F t y s = (s', Ok J).

(** ** Exact arithmetic *)
Local Open Scope R_scope.

(** The factorisation with partial pivoting of an invertible matrix and the two triangular solves that use it are exact:
    P A = L U, and the systems with the matrices -L and U are solved. *)
Class ExactLU (LA : LinAlg R) : Prop := {
  exact_lu : forall A, invertible A -> exists l u p, la_lu A = Some (l, u, p) /\
    let n := nrows A in let L := mtab n n l in let U := mtab n n u in let P := mtab n n p in
    invertible P /\
    (forall i j, (i < n)%nat -> (j < n)%nat ->
       Rsum n (fun k => mentry P i k * mentry A k j) = Rsum n (fun k => mentry L i k * mentry U k j)) /\
    (forall b, length b = n -> exists x, la_trisolve false (mneg L) b = Some x /\ is_solution (mneg L) (vtab n x) b) /\
    (forall b, length b = n -> exists x, la_trisolve true U b = Some x /\ is_solution U (vtab n x) b)
}.
(** [arma::inv] returns the inverse, and returns whenever there is one. *)
Class ExactInverse (LA : LinAlg R) : Prop := {
  exact_inv : forall A f, nrows A = ncols A -> la_inv A = Some f -> is_inverse A (mtab (nrows A) (nrows A) f);
  exact_inv_total : forall A, invertible A -> la_inv A <> None
}.

(** The implicit methods irk::odeint can run: coefficients, both orders, embedded weights, invertible A. *)
From Verif Require Import Model.Enums.
Definition implicit_runnable : list Z :=
  [RADAU_IIA_32; RADAU_IIA_53; RADAU_IIA_95; RADAU_IIA_137; LOBATTO_IIIC_43; LOBATTO_IIIC_64; LOBATTO_IIIC_85].

(** ** The stage equations over the reals: z_i = h sum_j a_ij f(t + c_j h, y + z_j), with z_0, z_1, ... stacked in Y
    (component p of z_i is entry n*i + p). *)
Definition stage_point (n : nat) (y Y : list R) (j : nat) : list R := vtab n (fun q => ventry y q + ventry Y (n * j + q)).
Definition stage_slope (n : nat) (c : nat -> R) (f : R -> list R -> list R) (t h : R) (y Y : list R) (j : nat) : list R :=
  f (t + c j * h) (stage_point n y Y j).
(** component p of the defect of equation i *)
Definition stage_defect (n s : nat) (a : nat -> nat -> R) (c : nat -> R) (f : R -> list R -> list R) (t h : R) (y Y : list R)
  (i p : nat) : R :=
  ventry Y (n * i + p) - h * Rsum s (fun j => a i j * ventry (stage_slope n c f t h y Y j) p).
(** sum of the squares of all defects *)
Definition defect_norm2 (n s : nat) (a : nat -> nat -> R) (c : nat -> R) (f : R -> list R -> list R) (t h : R) (y Y : list R) : R :=
  Rsum s (fun i => Rsum n (fun p => stage_defect n s a c f t h y Y i p * stage_defect n s a c f t h y Y i p)).
(** The matrix of the simplified Newton iteration for the stage equations: I - h (A kron J). *)
Definition is_stage_matrix (n s : nat) (a : nat -> nat -> R) (h : R) (J M : mat R) : Prop :=
  nrows M = (n * s)%nat /\ ncols M = (n * s)%nat /\
  forall i p j q, (i < s)%nat -> (p < n)%nat -> (j < s)%nat -> (q < n)%nat ->
    mentry M (n * i + p) (n * j + q) = delta i j * delta p q - h * (a i j * mentry J p q).
(** One iteration of the (simplified, possibly damped) Newton method for the stage equations, from the stages Y to Y':
    a solution d of (I - h A kron J) d = - defect(Y), if that matrix is invertible, and Y' = Y + lambda d. *)
Definition stage_newton (n s : nat) (a : nat -> nat -> R) (c : nat -> R) (f : R -> list R -> list R) (t h : R) (y : list R) (J : mat R)
  (damped : bool) (Y Y' d : list R) : Prop :=
  let lam := if damped then 1 / sqrt (1 + defect_norm2 n s a c f t h y Y) else 1 in
  length Y = (s * n)%nat /\ length Y' = (s * n)%nat /\ length d = (s * n)%nat /\
  (forall k, ventry Y' k = ventry Y k + lam * ventry d k) /\
  exists M, is_stage_matrix n s a h J M /\ mat_wf M /\
    (invertible M -> forall i p, (i < s)%nat -> (p < n)%nat ->
       Rsum (n * s) (fun k => mentry M (n * i + p) k * ventry d k) = - stage_defect n s a c f t h y Y i p).
(** What Newton's iteration reaches from the all-zero stages, always solving with answers [jac] of the Jacobian. *)
Inductive newton_reaches (n s : nat) (a : nat -> nat -> R) (c : nat -> R) (f : R -> list R -> list R) (t h : R) (y : list R) (jac : mat R -> Prop) (damped : bool) : list R -> Prop :=
| reach_zero : newton_reaches n s a c f t h y jac damped (vzeros (s * n))
| reach_next Y Y' J d : newton_reaches n s a c f t h y jac damped Y -> jac J -> stage_newton n s a c f t h y J damped Y Y' d -> newton_reaches n s a c f t h y jac damped Y'.
(** Every matrix the Jacobian returns is rectangular (as every Armadillo matrix is). *)
Definition jac_matrices {St} (F : functor R St) : Prop := forall t y J, jac_answers F t y J -> mat_wf J.

(** ** One step over the reals *)
(** Weights of the stages: d with A^T d = b. *)
Definition stage_weights (s : nat) (a : nat -> nat -> R) (b d : nat -> R) : Prop :=
  forall j, (j < s)%nat -> Rsum s (fun i => a i j * d i) = b j.
(** sum_i d_i z_i, component p *)
Definition weighted (n s : nat) (d : nat -> R) (Y : list R) (p : nat) : R := Rsum s (fun i => d i * ventry Y (n * i + p)).
(** The error estimate e of formula 8.19 of Hairer and Wanner: (I - gamma h J) e = gamma h f(t, y) + (second - first) increment *)
Definition estimate_of (n : nat) (gamma h : R) (J : mat R) (fy : list R) (diff : nat -> R) (e : list R) : Prop :=
  length e = n /\
  ((exists M, nrows M = n /\ ncols M = n /\ (forall p q, (p < n)%nat -> (q < n)%nat -> mentry M p q = delta p q - gamma * h * mentry J p q) /\ invertible M) ->
   forall p, (p < n)%nat -> ventry e p - gamma * h * Rsum n (fun q => mentry J p q * ventry e q) = gamma * h * ventry fy p + diff p).

(** Every matrix I - h (A kron J) of Newton's iteration, for an answered Jacobian and a step 0 < h <= hmax, is invertible. *)
Definition stage_matrices_invertible {St} (F : functor R St) (n s : nat) (a : nat -> nat -> R) (hmax : R) : Prop :=
  forall t y J h M, jac_answers F t y J -> 0 < h <= hmax -> is_stage_matrix n s a h J M -> mat_wf M -> invertible M.
