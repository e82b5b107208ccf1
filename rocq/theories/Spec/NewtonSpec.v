(** What a run of an iterative root finder looks like from outside: the calls to the user's system, with the answers. *)
From Coq Require Import Reals.
From Verif Require Import Model.Base Model.Scalar Model.LinAlg Model.Newton Spec.Sums Spec.ErkSpec.

Inductive ncall (T : Type) := NFun (x : list T) (v : list T) | NJac (x : list T) (A : mat T).
Arguments NFun {T}. Arguments NJac {T}.

(** The system [F], additionally writing down every answered call, in order. *)
Definition nlogged {T St} (F : nfunctor T St) : nfunctor T (St * list (ncall T)) :=
  NFunctor
    (fun x s => match n_fun F x (fst s) with
                | (s1, Ok v) => ((s1, snd s ++ [NFun x v]), Ok v)
                | (s1, Err e) => ((s1, snd s), Err e)
                end)
    (fun x s => match n_jac F x (fst s) with
                | (s1, Ok A) => ((s1, snd s ++ [NJac x A]), Ok A)
                | (s1, Err e) => ((s1, snd s), Err e)
                end).

(** A system that is a function of its argument and always answers. *)
Definition n_total {T St} (F : nfunctor T St) (f : list T -> list T) (J : list T -> mat T) : Prop :=
  (forall x s, snd (n_fun F x s) = Ok (f x)) /\ (forall x s, snd (n_jac F x s) = Ok (J x)).
Definition pure_system {T} (f : list T -> list T) (J : list T -> mat T) : nfunctor T unit :=
  NFunctor (fun x s => (s, Ok (f x))) (fun x s => (s, Ok (J x))).

(** A point visited by the iteration: the point, the value of the system there, the matrix the next direction is computed
    with, and the direction that led to the point (empty for the first one). *)
Record visit (T : Type) := Visit { v_x : list T; v_r : list T; v_J : mat T; v_d : list T }.
Arguments Visit {T}. Arguments v_x {T}. Arguments v_r {T}. Arguments v_J {T}. Arguments v_d {T}.

(** The calls of Newton's method that visits these points: the value and the Jacobian at the first one; at every later
    one the Jacobian, if it is to be refreshed, and the value. *)
Definition newton_log {T} (refresh : bool) (v0 : visit T) (V : list (visit T)) : list (ncall T) :=
  [NFun (v_x v0) (v_r v0); NJac (v_x v0) (v_J v0)] ++
  flat_map (fun v => (if refresh then [NJac (v_x v) (v_J v)] else []) ++ [NFun (v_x v) (v_r v)]) V.
(** The calls of Broyden's method: values only. *)
Definition broyden_log {T} (v0 : visit T) (V : list (visit T)) : list (ncall T) :=
  map (fun v => NFun (v_x v) (v_r v)) (v0 :: V).

Section Spec.
  Context {T : Type} `{Scalar T} `{LinAlg T}.
  (** the damping factor of Newton's method *)
  Definition newton_lambda (limit : bool) (v : visit T) : T :=
    (if limit then sZ 1 /. (sZ 1 +. la_dot (v_r v) (v_r v)) else sZ 1)%sc.
  (** [v'] is reached from [v] along its direction, damped; without refresh its matrix is the one of [v] *)
  Definition newton_move (refresh limit : bool) (v v' : visit T) : Prop :=
    vadd (v_x v) (vscale (newton_lambda limit v) (v_d v')) = Ok (v_x v') /\
    (refresh = false -> v_J v' = v_J v).
  (** the direction that led to this point counts as converged *)
  Definition converged (opts : options T) (v : visit T) : bool := (la_norminf (v_d v) <?. o_dx_delta opts)%sc.
End Spec.

(** ** Exact arithmetic *)
Local Open Scope R_scope.

Definition delta (i j : nat) : R := if Nat.eq_dec i j then 1 else 0.
(** B is a two-sided inverse of the n by n matrix A *)
Definition is_inverse (A B : mat R) : Prop :=
  nrows A = ncols A /\ nrows B = nrows A /\ ncols B = ncols A /\
  forall i j, (i < nrows A)%nat -> (j < nrows A)%nat ->
    Rsum (nrows A) (fun k => mentry A i k * mentry B k j) = delta i j /\
    Rsum (nrows A) (fun k => mentry B i k * mentry A k j) = delta i j.
Definition invertible (A : mat R) : Prop := exists B, is_inverse A B.

(** The solver for general linear systems is exact on invertible matrices (nothing is assumed about others). *)
Class ExactSolve (LA : LinAlg R) : Prop := {
  exact_solve : forall A b, invertible A -> length b = nrows A ->
    exists x, la_solve A b = Some x /\ is_solution A (vtab (ncols A) x) b
}.
(** [arma::norm(x,"inf")] is the largest absolute value, 0 for the empty vector *)
Class ExactNorm (LA : LinAlg R) : Prop := {
  exact_norminf : forall x, (forall a, In a x -> Rabs a <= la_norminf x) /\
                            (x = [] /\ la_norminf x = 0 \/ exists a, In a x /\ la_norminf x = Rabs a)
}.

(** Euclidean length *)
Definition norm2 (x : list R) : R := sqrt (Rsum (length x) (fun i => ventry x i * ventry x i)).
Definition vopp (x : list R) : list R := map Ropp x.
Definition vminus (x y : list R) : list R := vtab (length x) (fun i => ventry x i - ventry y i).

(** One damped and limited Newton step: a solution e of J e = -r, shortened so that the damped step is not longer than
    the limit (if there is one). *)
Definition newton_step (opts : options R) (v v' : visit R) : Prop :=
  let lam := if o_limit_step opts then 1 / (1 + norm2 (v_r v) * norm2 (v_r v)) else 1 in
  exists e, is_solution (v_J v) e (vopp (v_r v)) /\
    let mu := if Rlt_dec 0 (o_max_step opts)
              then if Rlt_dec (o_max_step opts) (lam * norm2 e) then o_max_step opts / (lam * norm2 e) else 1
              else 1 in
    length (v_x v') = length (v_x v) /\
    v_d v' = map (fun a => mu * a) e /\
    forall i, (i < length (v_x v))%nat -> ventry (v_x v') i = ventry (v_x v) i + lam * mu * ventry e i.

(** F(x) = M x - b with Jacobian M, for vectors of the right dimension. *)
Definition linear_system {St} (F : nfunctor R St) (M : mat R) (b : list R) : Prop :=
  (forall x s, length x = nrows M -> exists s' v, n_fun F x s = (s', Ok v) /\ length v = nrows M /\
     forall i, (i < nrows M)%nat -> ventry v i = Rsum (nrows M) (fun j => mentry M i j * ventry x j) - ventry b i) /\
  (forall x s, length x = nrows M -> exists s', n_jac F x s = (s', Ok M)).

(** Broyden's method from one point to the next: [v_J v] is the approximation of the inverse Jacobian at [v].  The full
    step, damped by 1/sqrt(1+|r|^2); *)
Definition broyden_damping (v : visit R) : R := 1 / sqrt (1 + norm2 (v_r v) * norm2 (v_r v)).
Definition broyden_full_step (v : visit R) : list R :=
  vtab (length (v_x v)) (fun i => - broyden_damping v * Rsum (length (v_x v)) (fun j => mentry (v_J v) i j * ventry (v_r v) j)).
(** ... under a limit m > 0 on the step: the length of the update is never more than m / lambda, and exactly that when
    the limit is active; *)
Definition broyden_update_length (m : R) (v v' : visit R) : Prop :=
  let lam := broyden_damping v in
  (lam * norm2 (broyden_full_step v) <= m -> vminus (v_x v') (v_x v) = broyden_full_step v) /\
  (m < lam * norm2 (broyden_full_step v) -> norm2 (vminus (v_x v') (v_x v)) = m / lam) /\
  norm2 (vminus (v_x v') (v_x v)) <= m / lam.
(** ... the change of x along the step, and the secant condition B' (r' - r) = x' - x. *)
Definition secant_condition (v v' : visit R) : Prop :=
  forall i, (i < length (v_x v))%nat ->
    Rsum (length (v_x v)) (fun j => mentry (v_J v') i j * (ventry (v_r v') j - ventry (v_r v) j)) = ventry (v_x v') i - ventry (v_x v) i.
(** the denominator of the update: (x' - x)^T B (r' - r) *)
Definition secant_denominator (v v' : visit R) : R :=
  Rsum (length (v_x v)) (fun j => Rsum (length (v_x v)) (fun i => (ventry (v_x v') i - ventry (v_x v) i) * mentry (v_J v) i j) *
                                  (ventry (v_r v') j - ventry (v_r v) j)).

(** number of calls of each kind *)
Definition count_nfun {T} (l : list (ncall T)) : nat := length (filter (fun c => match c with NFun _ _ => true | NJac _ _ => false end) l).
Definition count_njac {T} (l : list (ncall T)) : nat := length (filter (fun c => match c with NFun _ _ => false | NJac _ _ => true end) l).
