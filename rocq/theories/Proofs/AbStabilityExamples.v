(** Concrete problems beside C137. *)
From Coq Require Import Reals Lra.
From Verif Require Import Model.Base Model.Scalar Model.LinAlg Model.Newton Model.Enums Model.Options Model.Irk Model.Multistep.
From Verif Require Import Spec.Sums Spec.Observe Spec.MultistepSpec Spec.BdfLinearSpec Spec.AbStabilitySpec.
From Verif Require Import Proofs.SumsProofs Proofs.RVec Proofs.BdfLinear Proofs.BdfLinearExamples Proofs.ExactInstance Proofs.ErkGeneric Proofs.ErkExamples Proofs.AbCovarianceExamples.
Local Open Scope R_scope.

(** x' = -100 x + sin(t) y is driven by y' = -3 y *)
Definition as_A (t : R) (p q : nat) : R := match p, q with 0%nat, 0%nat => - 100 | 0%nat, _ => sin t | 1%nat, 1%nat => - 3 | _, _ => 0 end.
Lemma as_decaying : decaying_component 2 1 3 (affine_rhs 2 as_A (fun _ _ => 0)).
Proof. split; [lia|]. intros t y Ly. unfold affine_rhs. rewrite ventry_vt by lia. cbn [Rsum as_A]. ring. Qed.
Lemma as_runs : decaying_component 2 1 3 (affine_rhs 2 as_A (fun _ _ => 0)) /\ computes (la_F 2 as_A (fun _ _ => 0)) (affine_rhs 2 as_A (fun _ _ => 0)) /\
  exists h, 0 < h /\ forall dt k, 0 < dt <= h -> (1 <= k <= 5)%nat -> 0 < 3 * Rmin dt (50 - 0) < ab_limit k /\
    exists fuel w sol, la_ab 2 as_A (fun _ _ => 0) fuel 0 50 dt [1; 7] (Z.of_nat k) = (w, Ok sol).
Proof.
  split; [exact as_decaying|]. split; [apply (la_problem 2 as_A (fun _ _ => 0)); lia|].
  destruct (la_halts 2 as_A (fun _ _ => 0) 100 0 7) as (h & Hh & H); [lia|lra| |intros; rewrite Rabs_R0; lra|].
  { intros t p q Hp Hq. pose proof (SIN_bound t). destruct p as [|[|p]]; [| |lia]; (destruct q as [|[|q]]; [| |lia]); apply Rabs_le; unfold as_A; lra. }
  exists (Rmin h (1 / 100)). split; [apply Rmin_glb_lt; lra|]. intros dt k Hdt Hk. pose proof (Rmin_l h (1 / 100)). pose proof (Rmin_r h (1 / 100)). split.
  - rewrite Rmin_left by lra. assert (Hc : (k = 1 \/ k = 2 \/ k = 3 \/ k = 4 \/ k = 5)%nat) by lia.
    destruct Hc as [-> | [-> | [-> | [-> | ->]]]]; unfold ab_limit; cbn [nth Nat.sub]; lra.
  - apply H; [reflexivity| |lra|lra|lia]. intros p Hp. destruct p as [|[|p]]; [| |lia]; apply Rabs_le; unfold ventry; cbn [nth]; lra.
Qed.

(** y' = -1000 y with a step of 1/100 *)
Definition as_f (t : R) (y : list R) : list R := [- 1000 * ventry y 0].
Lemma as_grows : decaying_component 1 0 1000 as_f /\ computes (exr_fun as_f) as_f /\ ab_limit 1 < 1000 * Rmin (1 / 100) (1 - 0) /\
  exists fuel w sol, al_run as_f fuel 0 1 (1 / 100) [1] = (w, Ok sol) /\ (100 <= length (bo_t_vals sol))%nat.
Proof.
  split; [split; [lia|]; intros t y Ly; reflexivity|].
  assert (HC : computes (exr_fun as_f) as_f) by (intros t y s v Hv; injection Hv as <-; reflexivity).
  split; [exact HC|]. split; [rewrite Rmin_left by lra; unfold ab_limit; cbn [nth Nat.sub]; lra|].
  destruct (al_halts as_f 0 1 (1 / 100) [1]) as (fuel & w & sol & E); [intros t y _; reflexivity|lra|lra|]. exists fuel, w, sol. split; [exact E|].
  destruct (@AbCovariance.ab_facts _ _ _ _ as_f _ _ _ _ _ _ _ _ _ HC Rlt_0_1 (Zle_bool_imp_le 1 5 eq_refl) E) as (_ & _ & _ & _ & _ & He & _).
  rewrite Rmin_left in He by lra. destruct (Nat.le_gt_cases 100 (length (bo_t_vals sol))) as [L|L]; [exact L|]. exfalso.
  assert (INR (length (bo_t_vals sol) - 1) <= INR 98) by (apply le_INR; lia). replace (INR 98) with 98 in * by (simpl; ring). lra.
Qed.
