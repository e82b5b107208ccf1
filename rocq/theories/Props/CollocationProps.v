(** Property theorems about expand and the collocation weights (C12, C13), in exact arithmetic. *)
From Coq Require Import Reals Lra.
From Coquelicot Require Import Coquelicot.
From Verif Require Import Model.Base Model.Scalar Model.LinAlg Model.Collocation.
From Verif Require Import Spec.Sums Spec.CollocationSpec Proofs.CollocationProofs Proofs.ExactInstance.
Local Open Scope R_scope.

(** C12.  expand multiplies: for every assignment [v] of values to the variables. *)
Theorem C12_expand_is_product :
  forall (v : Z -> R) (c1 c2 : coeff_list), sum_value v (expand c1 c2) = sum_value v c1 * sum_value v c2.
Proof. exact expand_value. Qed.
Print Assumptions C12_expand_is_product.

(** ... and the terms of the result are exactly the concatenations of one term of each. *)
Theorem C12_expand_terms :
  forall c1 c2 : coeff_list, length (expand c1 c2) = (length c1 * length c2)%nat /\
  forall t, In t (expand c1 c2) <-> exists a b, In a c1 /\ In b c2 /\ t = a ++ b.
Proof. exact (fun c1 c2 => conj (expand_length c1 c2) (fun t => expand_in t c1 c2)). Qed.
Print Assumptions C12_expand_terms.

Example C12_example :
  expand [[1];[2]]%Z [[3];[4]]%Z = [[1;3];[1;4];[2;3];[2;4]]%Z /\
  sum_value IZR (expand [[1];[2]]%Z [[3];[4]]%Z) = 21.
Proof. split; [reflexivity|]. rewrite expand_value. unfold sum_value, term_value; simpl. lra. Qed.

(** C13.  With at least two nodes the weights are the integrals of the Lagrange basis polynomials.  ([lagrange]
    divides by differences of nodes: it is the usual polynomial when the nodes are distinct.) *)
Theorem C13_collocation_weights :
  forall (E : Env R) (LA : LinAlg R) (X : ExactProducts LA) (c : list R) (theta : R), (2 <= length c)%nat ->
  exists B w, collocation_interpolate_coeffs c = Ok B /\ project_b theta (length c) B = Ok w /\
  length w = length c /\
  forall j, (j < length c)%nat -> is_RInt (lagrange c j) 0 theta (ventry w j).
Proof. exact (fun E LA X c theta => @collocation_integrates E c LA X theta). Qed.
Print Assumptions C13_collocation_weights.

(** Finding: one node gives weight 0 instead of theta. *)
Theorem C13_single_node_weight_zero :
  forall (E : Env R) (LA : LinAlg R) (X : ExactProducts LA) (c theta : R),
  exists B, collocation_interpolate_coeffs [c] = Ok B /\ project_b theta 1 B = Ok [0].
Proof. exact (fun E LA X c theta => @collocation_single E [c] LA X theta eq_refl). Qed.
Print Assumptions C13_single_node_weight_zero.

(** The hypotheses are met: exact kernels exist, and the Lagrange polynomials of {0,1} are 1-x and x. *)
Example C13_example :
  (exists LA : LinAlg R, ExactProducts LA) /\ (2 <= length [0;1])%nat /\
  forall x, lagrange [0;1] 0 x = 1 - x /\ lagrange [0;1] 1 x = x.
Proof.
  split; [exists exact_LA; exact _|]. split; [simpl; lia|].
  intros x. unfold lagrange, ventry; simpl. split; field.
Qed.
