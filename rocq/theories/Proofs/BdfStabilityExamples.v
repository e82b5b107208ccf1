(** A nonlinear problem beside C134: y' = - 2 y + sin y + a cos t with the Jacobian - 2 + cos y. *)
From Coq Require Import Reals Lra.
From Verif Require Import Model.Base Model.Scalar Model.LinAlg Model.Newton Model.Enums Model.Options Model.Irk Model.Multistep.
From Verif Require Import Spec.Sums Spec.Observe Spec.NewtonSpec Spec.IrkSpec Spec.IrkTotalSpec Spec.MultistepSpec Spec.ConvergenceSpec Spec.StabilitySpec Spec.BdfStabilitySpec.
From Verif Require Import Proofs.SumsProofs Proofs.RVec Proofs.ChoiceInstance Proofs.ChoiceLU Proofs.IrkTotalExamples Proofs.IrkShortNear Proofs.AlgStable Proofs.CoerciveRuns Proofs.BdfStability.
Local Open Scope R_scope.

Lemma sin_diff x z : Rabs (sin x - sin z) <= Rabs (x - z).
Proof.
  destruct (MVT_abs sin cos z x) as (c & Hc & _); [intros; apply derivable_pt_lim_sin|]. rewrite Hc. rewrite <- (Rmult_1_l (Rabs (x - z))) at 2.
  apply Rmult_le_compat_r; [apply Rabs_pos|]. apply Rabs_le. pose proof (COS_bound c). lra.
Qed.
Section Problem.
  Variable a : R.
  Definition bs_f (t : R) (y : list R) : list R := [- 2 * ventry y 0 + sin (ventry y 0) + a * cos t].
  Definition bs_J (y : list R) : mat R := mtab 1 1 (fun _ _ => - 2 + cos (ventry y 0)).
  Definition bs_F : functor R unit := Functor (fun t y => ret (bs_f t y)) (fun t y => ret (bs_J y)).
  Lemma bs_f0 t y : ventry (bs_f t y) 0 = - 2 * ventry y 0 + sin (ventry y 0) + a * cos t.
  Proof. reflexivity. Qed.
  Lemma bs_computes : computes bs_F bs_f.
  Proof. intros t y s v Hv. injection Hv as <-. reflexivity. Qed.
  Lemma bs_jac t y J : jac_answers bs_F t y J -> J = bs_J y.
  Proof. intros (s & s' & E). injection E as _ <-. reflexivity. Qed.
  Lemma bs_entry y : - 3 <= mentry (bs_J y) 0 0 <= - 1.
  Proof. unfold bs_J. rewrite mentry_vt by lia. pose proof (COS_bound (ventry y 0)). lra. Qed.
  Lemma bs_matrices : jac_matrices bs_F.
  Proof. intros t y J HJ. rewrite (bs_jac _ _ _ HJ). repeat constructor. Qed.
  Lemma bs_slope x z : (- 2 * x + sin x - (- 2 * z + sin z)) * (x - z) <= 0.
  Proof.
    pose proof (sin_diff x z) as H. assert (Hs : (sin x - sin z) * (x - z) <= (x - z) * (x - z)).
    { eapply Rle_trans; [apply Rle_abs|]. rewrite Rabs_mult. replace ((x - z) * (x - z)) with (Rabs (x - z) * Rabs (x - z)) by (rewrite <- Rabs_mult; apply Rabs_pos_eq, Rle_0_sqr).
      apply Rmult_le_compat_r; [apply Rabs_pos|exact H]. }
    pose proof (Rle_0_sqr (x - z)) as Q. unfold Rsqr in Q. lra.
  Qed.
  Lemma bs_contractive : contractive 1 bs_f.
  Proof. intros t y z _ _. cbn [Rsum]. rewrite !bs_f0. pose proof (bs_slope (ventry y 0) (ventry z 0)). lra. Qed.
  Lemma bs_attracted : a = 0 -> attracted_to 1 bs_f [0].
  Proof. intros Ha t y _. cbn [Rsum]. rewrite bs_f0, Ha. change (ventry [0] 0) with 0. pose proof (bs_slope (ventry y 0) 0) as H. rewrite sin_0 in H. lra. Qed.
  Lemma bs_jac_error : jac_error bs_F 1 bs_f 2.
  Proof.
    intros t y J HJ. rewrite (bs_jac _ _ _ HJ). split; [intros x; cbn [Rsum]; pose proof (bs_entry y); pose proof (Rle_0_sqr (x 0%nat)); unfold Rsqr in * ; nra|].
    intros t' x z Lx Lz. rewrite dist_vtab. unfold dist. cbn [Rsum]. rewrite !Rplus_0_l.
    change (sqrt (Rsqr (ventry (bs_f t' x) 0 - ventry (bs_f t' z) 0 - mentry (bs_J y) 0 0 * (ventry x 0 - ventry z 0))) <= 2 * sqrt (Rsqr (ventry x 0 - ventry z 0))). rewrite !sqrt_Rsqr_abs, !bs_f0.
    unfold bs_J. rewrite mentry_vt by lia. pose proof (sin_diff (ventry x 0) (ventry z 0)) as H1. set (u := ventry x 0) in * . set (v := ventry z 0) in * . set (c := cos (ventry y 0)).
    replace (- 2 * u + sin u + a * cos t' - (- 2 * v + sin v + a * cos t') - (- 2 + c) * (u - v)) with (sin u - sin v + - c * (u - v)) by ring.
    eapply Rle_trans; [apply Rabs_triang|]. rewrite Rabs_mult. assert (Rabs (- c) <= 1) by (apply Rabs_le; pose proof (COS_bound (ventry y 0)); unfold c; lra).
    pose proof (Rmult_le_compat_r _ _ _ (Rabs_pos (u - v)) H). lra.
  Qed.
  Lemma bs_runs V : exists h, 0 < h /\ forall t0 t1 dt y0 order, Rabs y0 <= V -> t0 < t1 -> 0 < dt <= h -> (1 <= order <= 6)%Z ->
    exists fuel w sol, @bdf R RScalar choice_LA it_E unit fuel bs_F t0 t1 [y0] order dt (World tt []) = (w, Ok sol).
  Proof.
    destruct (multistep_near (LA := choice_LA) (HE := it_E) bs_F bs_f 1 (fun y => Rabs (ventry y 0) <= V) 1 (2 * (V + 1) + 1 + Rabs a) 3) as (h & Hh & H).
    - reflexivity.
    - lia.
    - lra.
    - intros t y s _. exists s, (bs_f t y). split; reflexivity.
    - apply bs_computes.
    - intros t y s _. exists s, (bs_J y). repeat (split; [reflexivity|]). repeat constructor.
    - apply bs_matrices.
    - lra.
    - split.
      + intros t y x s s' v p Ly HV Lx Hxy Hv Hp. injection Hv as _ <-. replace p with 0%nat by lia. rewrite bs_f0. specialize (Hxy 0%nat ltac:(lia)).
        eapply Rle_trans; [apply Rabs_triang|]. rewrite (Rabs_mult a). assert (Rabs a * Rabs (cos t) <= Rabs a * 1) by (apply Rmult_le_compat_l; [apply Rabs_pos|apply Rabs_le, COS_bound]).
        pose proof (Rabs_triang (- 2 * ventry x 0) (sin (ventry x 0))) as H1. rewrite Rabs_mult, (Rabs_left (- 2)) in H1 by lra.
        assert (Rabs (sin (ventry x 0)) <= 1) by (apply Rabs_le, SIN_bound).
        pose proof (Rabs_triang (ventry y 0) (ventry x 0 - ventry y 0)) as H2. replace (ventry y 0 + (ventry x 0 - ventry y 0)) with (ventry x 0) in H2 by ring. lra.
      + intros t y J p q _ _ HJ Hp Hq. rewrite (bs_jac _ _ _ HJ). replace p with 0%nat by lia. replace q with 0%nat by lia. apply Rabs_le. pose proof (bs_entry y). lra.
    - intros t y J p q HJ Hp Hq. rewrite (bs_jac _ _ _ HJ). replace p with 0%nat by lia. replace q with 0%nat by lia. apply Rabs_le. pose proof (bs_entry y). lra.
    - exists h. split; [exact Hh|]. intros t0 t1 dt y0 order HV Ht Hdt Ho. apply (H t0 t1 dt [y0] order (World tt [])); [reflexivity|exact HV|exact Ht|exact Hdt|exact Ho].
  Qed.
  Lemma bs_jac_bound t y J : jac_answers bs_F t y J -> nrows J = 1%nat -> ncols J = 1%nat -> forall p q, (p < 1)%nat -> (q < 1)%nat -> Rabs (mentry J p q) <= 3.
  Proof. intros HJ _ _ p q Hp Hq. rewrite (bs_jac _ _ _ HJ). replace p with 0%nat by lia. replace q with 0%nat by lia. apply Rabs_le. pose proof (bs_entry y). lra. Qed.
  Lemma bs_lipschitz t0 t1 : lipschitz_in 1 3 t0 t1 bs_f.
  Proof.
    intros t y z e Ht Ly Lz He q Hq. replace q with 0%nat by lia. specialize (He 0%nat ltac:(lia)). rewrite !bs_f0. pose proof (sin_diff (ventry y 0) (ventry z 0)) as H1. set (u := ventry y 0) in * . set (v := ventry z 0) in * .
    replace (- 2 * u + sin u + a * cos t - (- 2 * v + sin v + a * cos t)) with (- 2 * (u - v) + (sin u - sin v)) by ring. eapply Rle_trans; [apply Rabs_triang|]. rewrite Rabs_mult, (Rabs_left (- 2)) by lra. lra.
  Qed.
End Problem.
Lemma bs_close a b t y q : (q < 1)%nat -> Rabs (ventry (bs_f a t y) q - ventry (bs_f b t y) q) <= Rabs (a - b).
Proof.
  intros Hq. replace q with 0%nat by lia. rewrite !bs_f0. replace (_ - _) with ((a - b) * cos t) by ring. rewrite Rabs_mult. rewrite <- (Rmult_1_r (Rabs (a - b))) at 2. apply Rmult_le_compat_l; [apply Rabs_pos|apply Rabs_le, COS_bound].
Qed.
