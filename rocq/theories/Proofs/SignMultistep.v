(** Components that decay exponentially in multistep runs of first order (C141). *)
From Coq Require Import Reals Lra Lia.
From Verif Require Import Model.Base Model.Scalar Model.LinAlg Model.Newton Model.Enums Model.Options Model.Coeffs Model.ErkCoeffs Model.Erk Model.Irk Model.Multistep.
From Verif Require Import Spec.Sums Spec.Trees Spec.RkSpec Spec.Observe Spec.NewtonSpec Spec.ErkSpec Spec.IrkSpec Spec.Methods Spec.MultistepSpec Spec.StabilitySpec Spec.BdfLinearSpec Spec.SignSpec.
From Verif Require Import Proofs.SumsProofs Proofs.RVec Proofs.ExactInstance Proofs.ErkExamples Proofs.BdfLinear Proofs.BdfLinearExamples Proofs.AbCovariance Proofs.AbCovarianceExamples Proofs.SignExamples.
Local Open Scope R_scope.

Lemma ab_decay (LA : LinAlg R) (HE : Env R) (St : Type) (F : functor R St) f fuel t0 t1 y0 dt w w' sol p lam :
  computes F f -> decaying_component (length y0) p lam f -> t0 < t1 -> adams_bashforth fuel F t0 t1 y0 1 dt w = (w', Ok sol) ->
  forall i, (S i < length (bo_y_vals sol))%nat -> ventry (nth (S i) (bo_y_vals sol) []) p = (1 - lam * Rmin dt (t1 - t0)) * ventry (nth i (bo_y_vals sol) []) p.
Proof.
  intros HF (Hp & Hf) Ht E i Hi.
  destruct (ab_facts LA HE St F f fuel t0 t1 y0 1 dt w w' sol HF Ht (Zle_bool_imp_le 1 5 eq_refl) E) as (_ & _ & _ & HN & _ & _ & _ & Hlen & _ & Hs).
  rewrite HN in Hi. assert (Hr : (Z.to_nat 1 <= S i < length (bo_t_vals sol))%nat) by (change (Z.to_nat 1) with 1%nat; lia). specialize (Hs (S i) Hr). change (Z.to_nat 1) with 1%nat in Hs.
  assert (Li : length (yval (bo_y_vals sol) i) = length y0) by (apply Hlen; lia).
  pose proof (proj2 Hs p Hp) as Ep. cbn [Rsum] in Ep. replace (S i - 1 - 0)%nat with i in * by lia. replace (S i - 1)%nat with i in * by lia.
  set (h := Rmin dt (t1 - t0)) in * . unfold ab_weight in Ep. cbn [nth ab_table Nat.sub] in Ep.
  rewrite (Hf _ _ Li) in Ep. unfold yval in * . rewrite Ep. ring.
Qed.
Lemma bdf_decay (LA : LinAlg R) (HP : ExactProducts LA) (HX : ExactSolve LA) (HN : ExactNorm LA) (HE : Env R) (St : Type) (F : functor R St) A g fuel t0 t1 y0 dt w w' sol p lam :
  affine_problem F (length y0) A g -> decaying_component (length y0) p lam (affine_rhs (length y0) A g) -> bdf_solvable (length y0) (Rmin dt (t1 - t0)) A ->
  t0 < t1 -> bdf fuel F t0 t1 y0 1 dt w = (w', Ok sol) ->
  forall i, (1 <= i)%nat -> (S i < length (bo_y_vals sol))%nat -> ventry (nth i (bo_y_vals sol) []) p = (1 + lam * Rmin dt (t1 - t0)) * ventry (nth (S i) (bo_y_vals sol) []) p.
Proof.
  intros HF (Hp & Hf) Hs Ht E i H1 Hi.
  destruct (bdf_facts LA HP HX HN HE St F A g fuel t0 t1 y0 1 dt w w' sol HF Ht (conj (Z.le_refl 1) (Zle_bool_imp_le 1 6 eq_refl)) E) as (_ & _ & _ & HNl & _ & _ & _ & _ & Hlen & _ & Hr).
  { change (Z.to_nat 1) with 1%nat. unfold bdf_beta. cbn [nth Nat.sub]. rewrite Rmult_1_r. exact Hs. }
  rewrite HNl in Hi. change (Z.to_nat 1) with 1%nat in Hr.
  assert (Li : length (yval (bo_y_vals sol) (S i)) = length y0) by (apply Hlen; lia).
  pose proof (Hr (S i) p ltac:(lia) Hp) as Ep. unfold bdf_residual in Ep. cbn [Rsum] in Ep. replace (S i - 1 - 0)%nat with i in * by lia.
  set (h := Rmin dt (t1 - t0)) in * . unfold bdf_weight, bdf_beta in Ep. cbn [nth bdf_table Nat.sub] in Ep.
  rewrite (Hf _ _ Li) in Ep. unfold yval in * . lra.
Qed.

Lemma sg_ab_runs : computes (exr_fun (sg_f 12)) (sg_f 12) /\ decaying_component 2 0 12 (sg_f 12) /\ exists fuel w sol, al_run (sg_f 12) fuel 0 100 (1 / 4) [3; 1] = (w, Ok sol).
Proof. split; [apply exr_computes|]. split; [apply sg_decays|]. apply al_halts; [intros t y _; reflexivity|lra|lra]. Qed.
Definition sg_A (t : R) (p q : nat) : R := match p, q with 0%nat, 0%nat => - 1000 | 1%nat, 0%nat => 1 | 1%nat, 1%nat => - 1 | _, _ => 0 end.
Lemma sg_bdf_runs : affine_problem (la_F 2 sg_A (fun _ _ => 0)) 2 sg_A (fun _ _ => 0) /\ decaying_component 2 0 1000 (affine_rhs 2 sg_A (fun _ _ => 0)) /\ (forall c, 0 <= c -> bdf_solvable 2 c sg_A) /\
  exists h, 0 < h /\ forall dt, 0 < dt <= h -> exists fuel w sol, la_bdf 2 sg_A (fun _ _ => 0) fuel 0 100 dt [3; 4] 1 = (w, Ok sol).
Proof.
  split; [apply la_problem; lia|]. split.
  { split; [lia|]. intros t y _. unfold affine_rhs. rewrite !ventry_vt by lia. cbn [Rsum sg_A]. ring. }
  split. { intros c Hc. apply (damped_solvable 2 0); [lra|exact Hc|]. intros t x. cbn [Rsum sg_A]. nra. }
  destruct (la_halts 2 sg_A (fun _ _ => 0) 1000 0 4) as (h & Hh & H); [lia|lra| |intros; rewrite Rabs_R0; lra|].
  { intros t p q Hp Hq. destruct p as [|[|p]]; [| |lia]; (destruct q as [|[|q]]; [| |lia]); apply Rabs_le; unfold sg_A; lra. }
  exists h. split; [exact Hh|]. intros dt Hdt. apply H; [reflexivity| |lra|exact Hdt|lia]. intros p Hp. destruct p as [|[|p]]; [| |lia]; apply Rabs_le; unfold ventry; cbn [nth]; lra.
Qed.
