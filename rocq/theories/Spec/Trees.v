(** Butcher's order conditions (Hairer, Norsett, Wanner, Solving ODEs I, II.2): a Runge-Kutta method with
    coefficients a_ij and weights b_i has order p iff for every rooted tree t with at most p vertices
    sum_i b_i phi_i(t) = 1/gamma(t).  Trees are written with an order on the children of each vertex; every
    rooted tree is obtained (several times). *)
From Coq Require Import Reals.
From Verif Require Import Model.Base Model.LinAlg Spec.Sums.
Local Open Scope R_scope.

Inductive tree : Type := Node (children : list tree).

(** number of vertices *)
Fixpoint vertices (t : tree) : nat :=
  match t with Node ch => S (fold_right (fun u n => (vertices u + n)%nat) O ch) end.
(** the density gamma(t): product over all vertices of the size of the subtree below it *)
Fixpoint density (t : tree) : nat :=
  match t with Node ch => (vertices t * fold_right (fun u n => density u * n) 1 ch)%nat end.
(** the elementary weight of stage i *)
Fixpoint stage_weight (s : nat) (a : nat -> nat -> R) (t : tree) (i : nat) : R :=
  match t with
  | Node ch => fold_right (fun u r => Rsum s (fun j => a i j * stage_weight s a u j) * r) 1 ch
  end.
Definition weight (s : nat) (a : nat -> nat -> R) (b : nat -> R) (t : tree) : R :=
  Rsum s (fun i => b i * stage_weight s a t i).

Definition order_condition (s : nat) (a : nat -> nat -> R) (b : nat -> R) (t : tree) : Prop :=
  weight s a b t = 1 / INR (density t).

Definition has_order (s : nat) (a : nat -> nat -> R) (b : nat -> R) (p : nat) : Prop :=
  forall t, (vertices t <= p)%nat -> order_condition s a b t.
(** of order p and not of order p+1 *)
Definition exact_order (s : nat) (a : nat -> nat -> R) (b : nat -> R) (p : nat) : Prop :=
  has_order s a b p /\ exists t, vertices t = S p /\ ~ order_condition s a b t.

(** A matrix / vector as a function *)
Definition mfun (A : mat R) : nat -> nat -> R := mentry A.
Definition vfun (b : list R) : nat -> R := ventry b.

(** An embedded pair with an extra weight g on the derivative at the start of the step: the tableau with an
    additional explicit stage number s. *)
Definition ext_a (s : nat) (a : nat -> nat -> R) (i j : nat) : R :=
  if (i <? s)%nat && (j <? s)%nat then a i j else 0.
Definition ext_b (s : nat) (b : nat -> R) (g : R) (i : nat) : R := if (i <? s)%nat then b i else g.

(** Butcher's simplifying assumptions, up to an error of at most eps.
    B(p): sum_i b_i c_i^(k-1) = 1/k,  k = 1..p
    C(q): sum_j a_ij c_j^(k-1) = c_i^k/k,  k = 1..q *)
Definition B_within (eps : R) (s : nat) (b c : nat -> R) (p : nat) : Prop :=
  forall k, (1 <= k <= p)%nat -> Rabs (Rsum s (fun i => b i * c i ^ (k - 1)) - 1 / INR k) <= eps.
Definition C_within (eps : R) (s : nat) (a : nat -> nat -> R) (c : nat -> R) (q : nat) : Prop :=
  forall k i, (1 <= k <= q)%nat -> (i < s)%nat ->
  Rabs (Rsum s (fun j => a i j * c j ^ (k - 1)) - c i ^ k / INR k) <= eps.
