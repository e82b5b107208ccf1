(** The multistep coefficients have the advertised orders. *)
From Coq Require Import Reals Lra Lia.
From Verif Require Import Model.Base Model.LinAlg Spec.Sums Spec.RkSpec Spec.MultistepSpec.
Local Open Scope R_scope.

(** a monomial *)
Definition mono (d : nat) : nat -> R := fun j => if Nat.eqb j d then 1 else 0.
Ltac spell := cbv [ab_weight bdf_weight bdf_beta ab_table bdf_table nth Rsum poly dpoly Nat.sub mono Nat.eqb INR pow].

Lemma ab_order_1 : ab_exact 1 1 /\ ~ ab_exact 1 2.
Proof. split; [intros cf t h; spell; field|intros Hx; specialize (Hx (mono 2) 0 1); revert Hx; spell; lra]. Qed.
Lemma ab_order_2 : ab_exact 2 2 /\ ~ ab_exact 2 3.
Proof. split; [intros cf t h; spell; field|intros Hx; specialize (Hx (mono 3) 0 1); revert Hx; spell; lra]. Qed.
Lemma ab_order_3 : ab_exact 3 3 /\ ~ ab_exact 3 4.
Proof. split; [intros cf t h; spell; field|intros Hx; specialize (Hx (mono 4) 0 1); revert Hx; spell; lra]. Qed.
Lemma ab_order_4 : ab_exact 4 4 /\ ~ ab_exact 4 5.
Proof. split; [intros cf t h; spell; field|intros Hx; specialize (Hx (mono 5) 0 1); revert Hx; spell; lra]. Qed.
Lemma ab_order_5 : ab_exact 5 5 /\ ~ ab_exact 5 6.
Proof. split; [intros cf t h; spell; field|intros Hx; specialize (Hx (mono 6) 0 1); revert Hx; spell; lra]. Qed.
Lemma ab_orders k : (1 <= k <= 5)%nat -> ab_exact k k /\ ~ ab_exact k (S k).
Proof.
  intros Hk. destruct k as [|[|[|[|[|[|k]]]]]]; try lia; [exact ab_order_1|exact ab_order_2|exact ab_order_3|exact ab_order_4|exact ab_order_5].
Qed.
Lemma bdf_order_1 : bdf_exact 1 1 /\ ~ bdf_exact 1 2.
Proof. split; [intros cf t h; spell; field|intros Hx; specialize (Hx (mono 2) 0 1); revert Hx; spell; lra]. Qed.
Lemma bdf_order_2 : bdf_exact 2 2 /\ ~ bdf_exact 2 3.
Proof. split; [intros cf t h; spell; field|intros Hx; specialize (Hx (mono 3) 0 1); revert Hx; spell; lra]. Qed.
Lemma bdf_order_3 : bdf_exact 3 3 /\ ~ bdf_exact 3 4.
Proof. split; [intros cf t h; spell; field|intros Hx; specialize (Hx (mono 4) 0 1); revert Hx; spell; lra]. Qed.
Lemma bdf_order_4 : bdf_exact 4 4 /\ ~ bdf_exact 4 5.
Proof. split; [intros cf t h; spell; field|intros Hx; specialize (Hx (mono 5) 0 1); revert Hx; spell; lra]. Qed.
Lemma bdf_order_5 : bdf_exact 5 5 /\ ~ bdf_exact 5 6.
Proof. split; [intros cf t h; spell; field|intros Hx; specialize (Hx (mono 6) 0 1); revert Hx; spell; lra]. Qed.
Lemma bdf_order_6 : bdf_exact 6 6 /\ ~ bdf_exact 6 7.
Proof. split; [intros cf t h; spell; field|intros Hx; specialize (Hx (mono 7) 0 1); revert Hx; spell; lra]. Qed.
Lemma bdf_orders k : (1 <= k <= 6)%nat -> bdf_exact k k /\ ~ bdf_exact k (S k).
Proof.
  intros Hk. destruct k as [|[|[|[|[|[|[|k]]]]]]]; try lia; [exact bdf_order_1|exact bdf_order_2|exact bdf_order_3|exact bdf_order_4|exact bdf_order_5|exact bdf_order_6].
Qed.

Lemma ab_weights_sum k : (1 <= k <= 5)%nat -> Rsum k (ab_weight k) = 1.
Proof. intros Hk. destruct k as [|[|[|[|[|[|k]]]]]]; try lia; spell; lra. Qed.
Lemma bdf_weights_sum k : (1 <= k <= 6)%nat -> Rsum k (bdf_weight k) = -1.
Proof. intros Hk. destruct k as [|[|[|[|[|[|[|k]]]]]]]; try lia; spell; lra. Qed.
Lemma bdf_beta_pos k : (1 <= k <= 6)%nat -> 0 < bdf_beta k.
Proof. intros Hk. destruct k as [|[|[|[|[|[|[|k]]]]]]]; try lia; spell; lra. Qed.
