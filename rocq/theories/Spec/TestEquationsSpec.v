(** What the shipped test equations should satisfy. *)
From Coq Require Import Reals.
From Verif Require Import Model.Base Model.Scalar Model.LinAlg Spec.Sums Spec.JacobianSpec.
Local Open Scope R_scope.

(** [fun] returns [f t y] for states of dimension [n]. *)
Definition rhs_is {St} (n : nat) (F : functor R St) (f : R -> list R -> list R) : Prop :=
  forall t y s, length y = n -> f_fun F t y s = (s, Ok (f t y)) /\ length (f t y) = n.

(** At states of dimension [n] in [D], [jac] returns the n x n matrix of the partial derivatives of [fun]. *)
Definition jac_is_derivative {St} (n : nat) (D : list R -> Prop) (F : functor R St) : Prop :=
  exists f, rhs_is n F f /\
  forall t y s, length y = n -> D y ->
  exists J, f_jac F t y s = (s, Ok J) /\ nrows J = n /\ ncols J = n /\
  forall i j, (i < n)%nat -> (j < n)%nat -> derivable_pt_lim (along (f t) y i j) (ventry y j) (mentry J i j).

(** [sol] solves y' = fun(t,y) at all times. *)
Definition solves {St} (n : nat) (F : functor R St) (sol : R -> list R) : Prop :=
  forall t s, length (sol t) = n /\ exists v, f_fun F t (sol t) s = (s, Ok v) /\
  forall i, (i < n)%nat -> derivable_pt_lim (fun u => ventry (sol u) i) t (ventry v i).

(** The weighted sum of the components does not change along [fun]. *)
Definition conserves {St} (n : nat) (F : functor R St) (wt : nat -> R) : Prop :=
  forall t y s s' v, length y = n -> f_fun F t y s = (s', Ok v) -> Rsum n (fun q => wt q * ventry v q) = 0.

(** Pairwise distinct positions of the three bodies. *)
Definition apart (y : list R) : Prop :=
  (ventry y 0 <> ventry y 2 \/ ventry y 1 <> ventry y 3) /\
  (ventry y 0 <> ventry y 4 \/ ventry y 1 <> ventry y 5) /\
  (ventry y 2 <> ventry y 4 \/ ventry y 3 <> ventry y 5).

(** A functor without state: [fun] answers [r t y] and leaves the state alone. *)
Definition stateless_fun {St} (F : functor R St) (r : R -> list R -> res (list R)) : Prop := forall t y s, f_fun F t y s = (s, r t y).

(** The weights of the total momentum in x and in y of three bodies. *)
Definition momentum_x (q : nat) : R := nth q [0; 0; 0; 0; 0; 0; 1; 0; 1; 0; 1; 0] 0.
Definition momentum_y (q : nat) : R := nth q [0; 0; 0; 0; 0; 0; 0; 1; 0; 1; 0; 1] 0.
