(** A stiff damped oscillator, y' = G y with G = [-1 -1000; 1000 -1]: the problem for the stability theorems. *)
From Coq Require Import Reals Lra.
From Verif Require Import Model.Base Model.Scalar Model.LinAlg Model.Newton Model.Enums Model.Options Model.Coeffs Model.IrkCoeffs Model.Irk.
From Verif Require Import Spec.Sums Spec.Observe Spec.NewtonSpec Spec.IrkSpec Spec.IrkTotalSpec Spec.StabilitySpec.
From Verif Require Import Proofs.SumsProofs Proofs.RVec Proofs.IrkTotalExamples.
Local Open Scope R_scope.

Definition so_G (p q : nat) : R := match p, q with 0%nat, 1%nat => - 1000 | 1%nat, 0%nat => 1000 | _, _ => - 1 end.
Definition so_J : mat R := mtab 2 2 so_G.
Definition so_F : functor R unit := Functor (fun t y => ret (linear_rhs 2 so_G t y)) (fun t y => ret so_J).

Lemma so_damped mu : mu <= 1 -> damped_by mu 2 so_G.
Proof. intros Hm x. cbn [Rsum so_G]. pose proof (Rle_0_sqr (x 0%nat)). pose proof (Rle_0_sqr (x 1%nat)). unfold Rsqr in * . nra. Qed.
Lemma so_computes : computes so_F (linear_rhs 2 so_G).
Proof. intros t y s v Hv. injection Hv as <-. reflexivity. Qed.
Lemma so_jac : jac_is so_F 2 so_G.
Proof.
  intros t y J (s & s' & E). injection E as _ <-. split; [reflexivity|]. split; [reflexivity|]. split; [repeat constructor|].
  intros p q Hp Hq. unfold so_J. apply mentry_vt; assumption.
Qed.
Lemma so_dim : returns_dim so_F 2.
Proof. intros t y s Hy. exists s, (linear_rhs 2 so_G t y). split; reflexivity. Qed.
Lemma so_returns_jac : returns_jac so_F 2.
Proof. intros t y s Hy. exists s, so_J. split; [reflexivity|]. split; [reflexivity|]. split; [reflexivity|]. repeat constructor. Qed.
