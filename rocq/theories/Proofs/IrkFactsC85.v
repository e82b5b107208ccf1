(** Order conditions of LOBATTO_IIIC_85 (all trees with up to 8 vertices, in Q(sqrt 21); slow). *)
From Coq Require Import QArith Reals.
From Verif Require Import Model.Base Model.Coeffs Spec.Trees Proofs.QuadField Proofs.OrderProofs Proofs.IrkCoeffsProofs Proofs.IrkFacts.

Lemma ifacts_c85 m r (H : sc_match 21 q_c85 r) : irk_facts m r 5 8.
Proof. exact (irk_facts_intro 21 m q_c85 r 5 8 (bushy 9) eq_refl H
  ltac:(vm_compute; reflexivity) ltac:(vm_compute; reflexivity) eq_refl ltac:(vm_compute; reflexivity) eq_refl ltac:(vm_compute; reflexivity)). Qed.
