(** A nonlinear problem of any stiffness: y' = - L y / (1 + y^2), with the Jacobian - L / (1 + y^2). *)
From Coq Require Import Reals Lra.
From Verif Require Import Model.Base Model.Scalar Model.LinAlg Model.Newton Model.Enums Model.Options Model.Coeffs Model.IrkCoeffs Model.Irk.
From Verif Require Import Spec.Sums Spec.RkSpec Spec.Observe Spec.NewtonSpec Spec.IrkSpec Spec.IrkTotalSpec Spec.StabilitySpec.
From Verif Require Import Proofs.SumsProofs Proofs.RVec Proofs.ChoiceInstance Proofs.ChoiceLU Proofs.TablesGeneric Proofs.IrkReturns Proofs.IrkTotalExamples Proofs.AlgStable Proofs.AlgStableTables Proofs.CoerciveTables Proofs.CoerciveRuns.
Local Open Scope R_scope.

Section Problem.
  Variable L : R.
  Hypothesis HL : 0 <= L.
  Definition sn_f (t : R) (y : list R) : list R := [- L * ventry y 0 / (1 + ventry y 0 * ventry y 0)].
  Definition sn_J (y : list R) : mat R := mtab 1 1 (fun _ _ => - L / (1 + ventry y 0 * ventry y 0)).
  Definition sn_F : functor R unit := Functor (fun t y => ret (sn_f t y)) (fun t y => ret (sn_J y)).
  Lemma sn_f0 t y : ventry (sn_f t y) 0 = - L * ventry y 0 / (1 + ventry y 0 * ventry y 0).
  Proof. reflexivity. Qed.
  Lemma sn_pos x : 1 <= 1 + x * x.
  Proof. pose proof (Rle_0_sqr x). unfold Rsqr in * . lra. Qed.
  Lemma sn_computes : computes sn_F sn_f.
  Proof. intros t y s v Hv. injection Hv as <-. reflexivity. Qed.
  Lemma sn_jac t y J : jac_answers sn_F t y J -> J = sn_J y.
  Proof. intros (s & s' & E). injection E as _ <-. reflexivity. Qed.
  Lemma sn_entry y : mentry (sn_J y) 0 0 = - L / (1 + ventry y 0 * ventry y 0).
  Proof. unfold sn_J. apply mentry_vt; lia. Qed.
  Lemma sn_entry_bound y : - L <= mentry (sn_J y) 0 0 <= 0.
  Proof.
    rewrite sn_entry. pose proof (sn_pos (ventry y 0)) as H. set (q := 1 + _) in * . assert (0 < q) by lra. assert (0 < / q) by (apply Rinv_0_lt_compat; assumption).
    assert (/ q <= 1) by (rewrite <- Rinv_1; apply Rinv_le_contravar; lra). unfold Rdiv. split; [|assert (0 <= L * / q) by (apply Rmult_le_pos; lra); lra].
    assert (L * / q <= L * 1) by (apply Rmult_le_compat_l; lra). lra.
  Qed.
  Lemma sn_dissipative y : dissipative 1 (mentry (sn_J y)).
  Proof. intros x. cbn [Rsum]. pose proof (sn_entry_bound y). pose proof (Rle_0_sqr (x 0%nat)). unfold Rsqr in * . nra. Qed.
  Lemma sn_matrices : jac_matrices sn_F.
  Proof. intros t y J HJ. rewrite (sn_jac _ _ _ HJ). repeat constructor. Qed.
  Lemma sn_attracted : attracted_to 1 sn_f [0].
  Proof.
    intros t y Ly. cbn [Rsum]. rewrite sn_f0. change (ventry [0] 0) with 0. pose proof (sn_pos (ventry y 0)) as H. set (q := 1 + _) in * . set (x := ventry y 0) in * .
    assert (0 < / q) by (apply Rinv_0_lt_compat; lra). pose proof (Rle_0_sqr x). unfold Rsqr in * . assert (0 <= L * / q * (x * x)) by (apply Rmult_le_pos; [apply Rmult_le_pos|]; lra). unfold Rdiv. lra.
  Qed.
  Lemma sn_lipschitz x z : Rabs (- L * x / (1 + x * x) - - L * z / (1 + z * z)) <= L * Rabs (x - z).
  Proof.
    pose proof (sn_pos x) as Hx. pose proof (sn_pos z) as Hz.
    replace (- L * x / (1 + x * x) - - L * z / (1 + z * z)) with (- L * ((1 - x * z) / ((1 + x * x) * (1 + z * z))) * (x - z)) by (field; lra).
    rewrite !Rabs_mult, Rabs_Ropp, (Rabs_pos_eq L) by exact HL. apply Rmult_le_compat_r; [apply Rabs_pos|]. rewrite <- (Rmult_1_r L) at 2. apply Rmult_le_compat_l; [exact HL|].
    set (q := (1 + x * x) * (1 + z * z)). assert (Hq : 0 < q) by (unfold q; apply Rmult_lt_0_compat; lra). unfold Rdiv. rewrite Rabs_mult, (Rabs_pos_eq (/ q)) by (left; apply Rinv_0_lt_compat, Hq).
    apply Rmult_le_reg_r with q; [exact Hq|]. rewrite Rmult_assoc, Rinv_l, Rmult_1_r, Rmult_1_l by lra. unfold q. apply Rabs_le. split; nra.
  Qed.
  Lemma sn_jac_error : jac_error sn_F 1 sn_f (2 * L).
  Proof.
    intros t y J HJ. rewrite (sn_jac _ _ _ HJ). split; [apply sn_dissipative|]. intros t' x z Lx Lz. rewrite dist_vtab. unfold dist. cbn [Rsum]. rewrite !Rplus_0_l.
    change (sqrt (Rsqr (ventry (sn_f t' x) 0 - ventry (sn_f t' z) 0 - mentry (sn_J y) 0 0 * (ventry x 0 - ventry z 0))) <= 2 * L * sqrt (Rsqr (ventry x 0 - ventry z 0))). rewrite !sqrt_Rsqr_abs.
    pose proof (sn_lipschitz (ventry x 0) (ventry z 0)) as H1. pose proof (sn_entry_bound y) as H2. rewrite !sn_f0.
    eapply Rle_trans; [apply Rabs_triang|]. rewrite Rabs_Ropp, Rabs_mult. assert (Rabs (mentry (sn_J y) 0 0) <= L) by (apply Rabs_le; lra).
    pose proof (Rmult_le_compat_r _ _ _ (Rabs_pos (ventry x 0 - ventry z 0)) H). lra.
  Qed.
  Lemma sn_dim : returns_dim sn_F 1.
  Proof. intros t y s Hy. exists s, (sn_f t y). split; reflexivity. Qed.
  Lemma sn_returns_jac : returns_jac sn_F 1.
  Proof. intros t y s Hy. exists s, (sn_J y). repeat (split; [reflexivity|]). repeat constructor. Qed.
  Lemma sn_bounded : bounded_rhs sn_F 1 L L.
  Proof.
    split.
    - intros t y s s' v p Hy E Hp. injection E as _ <-. replace p with 0%nat by lia. rewrite sn_f0. set (x := ventry y 0). pose proof (sn_pos x) as Hx. set (q := 1 + x * x) in * .
      unfold Rdiv. rewrite Rmult_assoc, Rabs_mult, Rabs_Ropp, (Rabs_pos_eq L) by exact HL. rewrite <- (Rmult_1_r L) at 2. apply Rmult_le_compat_l; [exact HL|].
      rewrite Rabs_mult, (Rabs_pos_eq (/ q)) by (left; apply Rinv_0_lt_compat; lra). apply Rmult_le_reg_r with q; [lra|]. rewrite Rmult_assoc, Rinv_l, Rmult_1_r, Rmult_1_l by lra. unfold q. apply Rabs_le. split; nra.
    - intros t y J p q Hy HJ Hp Hq. rewrite (sn_jac _ _ _ HJ). replace p with 0%nat by lia. replace q with 0%nat by lia. apply Rabs_le. pose proof (sn_entry_bound y). lra.
  Qed.
  Lemma sn_solvable m C sc hmax : In (m, C) radau_growth -> irk_get_coefficients m = Ok sc -> solvable_up_to sn_F 1 sc hmax.
  Proof.
    intros Hm Hg. destruct (growth_weights m C Hm) as (wt & Hwt). destruct (closed_stable m wt sc Hwt Hg) as [[T1 T2 T3 T4 T5] _]. split.
    - intros t y J h M HJ Hh HM Hw. rewrite (sn_jac _ _ _ HJ) in HM. refine (dissipative_stage_matrix _ _ _ T2 T3 1 (mentry (sn_J y)) h (sn_J y) M (sn_dissipative y) _ _ HM); [lra|reflexivity].
    - intros t y J h HJ _ _ Hh. rewrite (sn_jac _ _ _ HJ). refine (dissipative_one_minus 1 (mentry (sn_J y)) (sn_J y) _ (sn_dissipative y) _ _); [apply Rmult_le_pos; lra|reflexivity].
  Qed.
  Lemma sn_run m C t1 dt y0 : In (m, C) radau_growth -> 0 < t1 -> 0 < dt -> exists fuel w' sol,
    @irk_odeint R RScalar choice_LA it_E unit fuel sn_F 0 t1 [y0] (it_opts 1000) output_options_default m dt (World tt []) = (w', Ok sol).
  Proof.
    intros Hm Ht1 Hdt. destruct (irk_get_ok (T := R) m) as (sc & Hsc & _).
    assert (Hr : In m implicit_runnable) by (clear - Hm; unfold radau_growth in Hm; cbn [In] in Hm; destruct Hm as [H|[H|[]]]; injection H as <- _; unfold implicit_runnable; cbn; tauto).
    destruct (irk_returns (LA := choice_LA) sn_F sn_f 0 t1 [y0] (it_opts 1000) output_options_default m dt it_nopts sc t1 L L) as (fuel & Hf);
      try reflexivity; try assumption; try (cbn; lra); try (cbn; lia).
    - split; [cbn; lia|cbn; discriminate].
    - apply sn_dim.
    - apply sn_computes.
    - apply sn_returns_jac.
    - apply sn_matrices.
    - apply sn_bounded.
    - exact (sn_solvable m C sc t1 Hm Hsc).
    - exists fuel. exact (Hf fuel (World tt []) (le_n _)).
  Qed.
End Problem.
