(** y' = (cos t, - cos t) solved by both multistep solvers; and problems on which they do no better than order one. *)
From Coq Require Import Reals Lra.
From Verif Require Import Model.Base Model.Scalar Model.LinAlg Model.Newton Model.Enums Model.Options Model.Irk Model.Multistep.
From Verif Require Import Spec.Sums Spec.Observe Spec.NewtonSpec Spec.IrkSpec Spec.IrkTotalSpec Spec.MultistepSpec Spec.ConvergenceSpec.
From Verif Require Import Proofs.SumsProofs Proofs.ChoiceInstance Proofs.ChoiceLU Proofs.IrkTotalExamples Proofs.ConvergenceIrkExamples Proofs.ShortSteps Proofs.ConvergenceAb Proofs.ConvergenceBdf.
Local Open Scope R_scope.

Lemma cos_slope s t : Rabs (cos t - cos s) <= 1 * Rabs (t - s).
Proof.
  assert (G : forall a b, a < b -> Rabs (cos b - cos a) <= 1 * Rabs (b - a)).
  { intros a b Hab. destruct (MVT_cor2 cos (fun x => - sin x) a b Hab ltac:(intros; apply derivable_pt_lim_cos)) as (c & Hc & _). rewrite Hc, Rabs_mult, Rabs_Ropp.
    apply Rmult_le_compat_r; [apply Rabs_pos|]. apply Rabs_le. pose proof (SIN_bound c). lra. }
  destruct (Rtotal_order s t) as [H|[->|H]]; [apply G, H|rewrite !Rminus_diag_eq, Rabs_R0 by reflexivity; lra|]. rewrite (Rabs_minus_sym (cos t)), (Rabs_minus_sym t). apply G, H.
Qed.
Lemma ic_steady : slopes_steady 2 1 1 0 2 (it_f cos) ic_phi.
Proof.
  intros s t q _ _ Hq. destruct q as [|[|q]]; [| |lia]; unfold it_f, ventry; cbn [nth].
  - split; [apply Rabs_le; pose proof (COS_bound t); lra|apply cos_slope].
  - split; [rewrite Rabs_Ropp; apply Rabs_le; pose proof (COS_bound t); lra|]. replace (- cos t - - cos s) with (- (cos t - cos s)) by ring. rewrite Rabs_Ropp. apply cos_slope.
Qed.

(** both solvers return for all small steps *)
Lemma it_multistep_short g : (forall t, Rabs (g t) <= 1) -> exists hs, 0 < hs /\ forall t0 t1 dt y0 order w, length y0 = 2%nat -> t0 < t1 -> 0 < dt <= hs ->
  ((1 <= order <= 5)%Z -> exists fuel w' sol, @adams_bashforth R RScalar choice_LA it_E unit fuel (it_F g) t0 t1 y0 order dt w = (w', Ok sol)) /\
  ((1 <= order <= 6)%Z -> exists fuel w' sol, @bdf R RScalar choice_LA it_E unit fuel (it_F g) t0 t1 y0 order dt w = (w', Ok sol)).
Proof.
  intros Hg. apply (multistep_bounded (LA := choice_LA) (HE := it_E) (it_F g) (it_f g) 2 1 0); [reflexivity|lia|lra|apply it_dim|apply it_computes|apply it_returns_jac|apply it_matrices|apply it_bounded, Hg|].
  intros t y J p q HJ Hp Hq. rewrite (it_zero g t y J p q HJ Hp Hq), Rabs_R0. lra.
Qed.

(** the identity on [0,1], cut off *)
Definition ramp (t : R) : R := Rmax (-1) (Rmin t 1).
Lemma ramp_bound t : Rabs (ramp t) <= 1.
Proof. unfold ramp. apply Rabs_le. split; [apply Rmax_l|apply Rmax_lub; [lra|apply Rmin_r]]. Qed.
Lemma ramp_id t : 0 <= t <= 1 -> ramp t = t.
Proof. intros H. unfold ramp. rewrite Rmin_left by lra. apply Rmax_right. lra. Qed.
