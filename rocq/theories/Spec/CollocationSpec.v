(** Specification of symbolic products and of Lagrange interpolation. *)
From Coq Require Import Reals.
From Verif Require Import Model.Base Spec.Sums.
Local Open Scope R_scope.

(** The value of a sum of products of variables under an assignment [v] of the variables. *)
Definition term_value (v : Z -> R) (t : list Z) : R := fold_right (fun j r => v j * r) 1 t.
Definition sum_value (v : Z -> R) (c : list (list Z)) : R := fold_right (fun t r => term_value v t + r) 0 c.

(** The j-th Lagrange basis polynomial of the nodes c. *)
Definition lagrange (c : list R) (j : nat) (x : R) : R :=
  Rprod (length c) (fun k => if (k =? j)%nat then 1 else (x - ventry c k) / (ventry c j - ventry c k)).
