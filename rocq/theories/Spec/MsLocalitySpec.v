(** For statements about what runs of the multistep solvers and of the root finders can depend on. *)
From Coq Require Import Reals.
From Verif Require Import Model.Base Model.LinAlg Model.Newton Spec.NewtonSpec.
Local Open Scope R_scope.

(** from t0 on, and before [e] or not after [e'] *)
Definition reached (t0 e e' t : R) : Prop := t0 <= t /\ (t < e \/ t <= e').
(** F and G do the same, in every state, when called as in c. *)
Definition nagree_at {T St} (F G : nfunctor T St) (c : ncall T) : Prop :=
  match c with
  | NFun x _ => forall s, n_fun F x s = n_fun G x s
  | NJac x _ => forall s, n_jac F x s = n_jac G x s
  end.
Definition ncall_point {T} (c : ncall T) : list T := match c with NFun x _ => x | NJac x _ => x end.
