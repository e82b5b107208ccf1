(** Concrete problems beside C139. *)
From Coq Require Import Reals Lra Lia.
From Verif Require Import Model.Base Model.Scalar Model.LinAlg Model.Newton Model.Enums Model.Options Model.Coeffs Model.ErkCoeffs Model.Erk Model.Irk Model.Multistep.
From Verif Require Import Spec.Sums Spec.Trees Spec.RkSpec Spec.Observe Spec.NewtonSpec Spec.ErkSpec Spec.IrkSpec Spec.Methods Spec.MultistepSpec Spec.StabilitySpec Spec.BdfLinearSpec Spec.OscillatorSpec.
From Verif Require Import Proofs.SumsProofs Proofs.RVec Proofs.ExactInstance Proofs.ErkGeneric Proofs.ErkTimes Proofs.ErkExamples Proofs.ConvergenceErk Proofs.BdfLinear Proofs.BdfLinearExamples Proofs.AbCovarianceExamples.
Local Open Scope R_scope.

(** an oscillator that drives a third component *)
Definition os_f (t : R) (y : list R) : list R := [9 / 10 * ventry y 1; - (9 / 10) * ventry y 0; ventry y 0 * ventry y 2 + t].
Definition os_run (m : Z) (fuel : nat) := @erk_odeint R RScalar exact_LA (exr_E false) _ fuel (exr_fun os_f) 0 1 [3; 4; 1] (exr_opts false) output_options_default m (1 / 4) (World tt []).
Lemma os_pair : oscillating_pair 3 0 1 (9 / 10) os_f.
Proof. split; [lia|]. split; [lia|]. intros t y _. split; reflexivity. Qed.
Lemma os_runs m : In m explicit_methods -> computes (exr_fun os_f) os_f /\ oscillating_pair 3 0 1 (9 / 10) os_f /\ 0 < energy 0 1 [3; 4; 1] /\
  exists fuel w sol, os_run m fuel = (w, Ok sol) /\ forall k, (S k < length (eo_y_vals sol))%nat ->
    0 < (9 / 10 * (nth (S k) (eo_t_vals sol) 0 - nth k (eo_t_vals sol) 0)) ^ 2 <= 81 / 100.
Proof.
  intros Hm. split; [apply exr_computes|]. split; [exact os_pair|]. split; [unfold energy, ventry; cbn [nth]; lra|].
  destruct (exr_fixed false os_f m [3; 4; 1] Hm) as (fuel & w & sol & E); [intros t y _; reflexivity|]. exists fuel, w, sol. split; [exact E|]. intros k Hk.
  destruct (@erk_times (exr_E false) exact_LA _ _ _ _ _ _ _ _ _ _ _ _ _ (or_introl eq_refl) E) as (Hs & Hr & _).
  destruct (erk_aligned _ _ _ _ _ _ _ _ _ _ _ _ E) as (_ & HL & _). rewrite HL in Hk. pose proof (sorted_nth _ Hs k Hk) as Hlt. rewrite Forall_forall in Hr.
  pose proof (Hr _ (nth_In _ 0 Hk)) as A1. assert (Hk' : (k < length (eo_t_vals sol))%nat) by lia. pose proof (Hr _ (nth_In _ 0 Hk')) as A2.
  set (d := nth (S k) (eo_t_vals sol) 0 - nth k (eo_t_vals sol) 0). assert (0 < d <= 1) by (unfold d; lra). split; [apply pow_lt; lra|]. replace (81 / 100) with ((9 / 10 * 1) ^ 2) by field. apply pow_incr. lra.
Qed.
Lemma os_ab_runs : computes (exr_fun os_f) os_f /\ oscillating_pair 3 0 1 (9 / 10) os_f /\ exists fuel w sol, al_run os_f fuel 0 100 (1 / 4) [3; 4; 1] = (w, Ok sol).
Proof. split; [apply exr_computes|]. split; [exact os_pair|]. apply al_halts; [intros t y _; reflexivity|lra|lra]. Qed.

Definition os_A (t : R) (p q : nat) : R := match p, q with 0%nat, 1%nat => 1000 | 1%nat, 0%nat => - 1000 | _, _ => 0 end.
Lemma os_bdf_runs : affine_problem (la_F 2 os_A (fun _ _ => 0)) 2 os_A (fun _ _ => 0) /\ oscillating_pair 2 0 1 1000 (affine_rhs 2 os_A (fun _ _ => 0)) /\ (forall c, 0 <= c -> bdf_solvable 2 c os_A) /\
  exists h, 0 < h /\ forall dt, 0 < dt <= h -> exists fuel w sol, la_bdf 2 os_A (fun _ _ => 0) fuel 0 100 dt [3; 4] 1 = (w, Ok sol).
Proof.
  split; [apply la_problem; lia|]. split.
  { split; [lia|]. split; [lia|]. intros t y _. unfold affine_rhs. rewrite !ventry_vt by lia. cbn [Rsum os_A]. split; ring. }
  split. { intros c Hc. apply (damped_solvable 2 0); [lra|exact Hc|]. intros t x. cbn [Rsum os_A]. lra. }
  destruct (la_halts 2 os_A (fun _ _ => 0) 1000 0 4) as (h & Hh & H); [lia|lra| |intros; rewrite Rabs_R0; lra|].
  { intros t p q Hp Hq. destruct p as [|[|p]]; [| |lia]; (destruct q as [|[|q]]; [| |lia]); apply Rabs_le; unfold os_A; lra. }
  exists h. split; [exact Hh|]. intros dt Hdt. apply H; [reflexivity| |lra|exact Hdt|lia]. intros p Hp. destruct p as [|[|p]]; [| |lia]; apply Rabs_le; unfold ventry; cbn [nth]; lra.
Qed.
