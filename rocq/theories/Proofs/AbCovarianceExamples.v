(** Concrete problems beside C128 and C129. *)
From Coq Require Import Reals Lra.
From Verif Require Import Model.Base Model.Scalar Model.LinAlg Model.Newton Model.Enums Model.Options Model.Irk Model.Multistep.
From Verif Require Import Spec.Sums Spec.Observe Spec.NewtonSpec Spec.IrkSpec Spec.IrkTotalSpec Spec.MultistepSpec Spec.ConvergenceSpec Spec.Covariance.
From Verif Require Import Proofs.SumsProofs Proofs.RVec Proofs.ChoiceInstance Proofs.ChoiceLU Proofs.ExactInstance Proofs.ErkGeneric Proofs.ErkTotal Proofs.ErkBounded Proofs.ErkExamples Proofs.MultistepTotal Proofs.IrkTotalExamples Proofs.ShortSteps Proofs.MultistepConvExamples Proofs.CovarianceExamples.
Local Open Scope R_scope.

(** bounded right-hand sides, with the zero matrix offered as Jacobian *)
Definition ax_F (n : nat) (f : R -> list R -> list R) : functor R unit := Functor (fun t y => ret (f t y)) (fun t y => ret (mtab n n (fun _ _ => 0))).
Definition ax_run (n : nat) (f : R -> list R -> list R) (fuel : nat) (a b dt : R) (y : list R) (order : Z) :=
  @adams_bashforth R RScalar choice_LA it_E unit fuel (ax_F n f) a b y order dt (World tt []).
Lemma ax_computes n f : computes (ax_F n f) f.
Proof. intros t y s v Hv. injection Hv as <-. reflexivity. Qed.
Lemma ax_halts n f B : (0 < n)%nat -> (forall t y, length (f t y) = n) -> (forall t y p, (p < n)%nat -> Rabs (ventry (f t y) p) <= B) ->
  exists hs, 0 < hs /\ forall a b dt y order, length y = n -> a < b -> 0 < dt <= hs -> (1 <= order <= 5)%Z ->
  exists fuel w sol, ax_run n f fuel a b dt y order = (w, Ok sol).
Proof.
  intros Hn Hd HB.
  assert (HJ : forall t y J, jac_answers (ax_F n f) t y J -> J = mtab n n (fun _ _ => 0)) by (intros t y J (s & s' & E); injection E as _ <-; reflexivity).
  destruct (multistep_bounded (LA := choice_LA) (HE := it_E) (ax_F n f) f n B 0) as (hs & Hhs & H).
  - reflexivity.
  - exact Hn.
  - lra.
  - intros t y s _. exists s, (f t y). split; [reflexivity|apply Hd].
  - apply ax_computes.
  - intros t y s _. exists s, (mtab n n (fun _ _ => 0)). split; [reflexivity|]. split; [apply mtab_nrows|]. split; [apply mtab_ncols; lia|apply mtab_wf].
  - intros t y J HJ'. rewrite (HJ _ _ _ HJ'). apply mtab_wf.
  - split; [intros t y s s' v p _ E Hp; injection E as _ <-; apply HB, Hp|]. intros t y J p q _ HJ' Hp Hq. rewrite (HJ _ _ _ HJ'), mentry_vt by assumption. rewrite Rabs_R0. lra.
  - intros t y J p q HJ' Hp Hq. rewrite (HJ _ _ _ HJ'), mentry_vt by assumption. rewrite Rabs_R0. lra.
  - exists hs. split; [exact Hhs|]. intros a b dt y order Ly Hab Hdt Ho. exact (proj1 (H a b dt y order (World tt []) Ly Hab Hdt) Ho).
Qed.

(** x' = cos x, y' = sin x + sin t, and its first component in other units (z = 100 x + 3, tau = 10 t + 5) *)
Definition ax_f (t : R) (y : list R) : list R := [cos (ventry y 0); (sin (ventry y 0) + sin t) / 2].
Definition ax_g (t : R) (z : list R) : list R := [100 * cos ((ventry z 0 - 3) / 100) / 10].
Lemma ax_conjugate : conjugate 2 1 ce_M (fun _ => 3) 10 5 ax_f ax_g.
Proof.
  intros t y Hy. unfold ax_g, affine_map, linear_map, ax_f, vtab, ce_M, ventry. cbn [map seq Rsum nth length].
  replace ((3 + (0 + 100 * nth 0 y 0 + 0 * nth 1 y 0) - 3) / 100) with (nth 0 y 0) by field. f_equal. field.
Qed.
Lemma ax_affine : conjugate 2 1 ce_M (fun _ => 3) 10 5 ax_f ax_g /\ [103] = affine_map 2 1 ce_M (fun _ => 3) [1; 2] /\
  exists h, 0 < h /\ forall dt order, 0 < dt <= h -> (1 <= order <= 5)%Z -> exists f1 f3 w1 w3 r1 r3,
    ax_run 2 ax_f f1 0 1 dt [1; 2] order = (w1, Ok r1) /\ ax_run 1 ax_g f3 (10 * 0 + 5) (10 * 1 + 5) (10 * dt) [103] order = (w3, Ok r3).
Proof.
  split; [exact ax_conjugate|]. split; [unfold affine_map, vtab, ce_M, ventry; cbn [map seq Rsum nth]; f_equal; lra|].
  destruct (ax_halts 2 ax_f 1) as (h1 & P1 & Q1); [lia|reflexivity| |].
  { intros t y p Hp. unfold ax_f, ventry. destruct p as [|[|p]]; [| |lia]; cbn [nth]; apply Rabs_le; [pose proof (COS_bound (nth 0 y 0)); lra|]. pose proof (SIN_bound (nth 0 y 0)). pose proof (SIN_bound t). lra. }
  destruct (ax_halts 1 ax_g 10) as (h2 & P2 & Q2); [lia|reflexivity| |].
  { intros t y p Hp. unfold ax_g, ventry. destruct p as [|p]; [|lia]. cbn [nth]. apply Rabs_le. pose proof (COS_bound ((nth 0 y 0 - 3) / 100)). lra. }
  exists (Rmin h1 (h2 / 10)). split; [apply Rmin_glb_lt; lra|]. intros dt order Hdt Ho. pose proof (Rmin_l h1 (h2 / 10)). pose proof (Rmin_r h1 (h2 / 10)).
  destruct (Q1 0 1 dt [1; 2] order eq_refl ltac:(lra) ltac:(lra) Ho) as (f1 & w1 & r1 & R1).
  destruct (Q2 (10 * 0 + 5) (10 * 1 + 5) (10 * dt) [103] order eq_refl ltac:(lra) ltac:(lra) Ho) as (f3 & w3 & r3 & R3).
  exists f1, f3, w1, w3, r1, r3. split; assumption.
Qed.

(** twice a linear system and three times a forced one, with order one *)
Definition al_run (f : R -> list R -> list R) (fuel : nat) (a b dt : R) (y : list R) :=
  @adams_bashforth R RScalar exact_LA (exr_E false) _ fuel (exr_fun f) a b y 1 dt (World tt []).
Lemma al_halts f a b dt y : preserves_dim f (length y) -> a < b -> 0 < dt -> exists fuel w sol, al_run f fuel a b dt y = (w, Ok sol).
Proof.
  intros Hf Hab Hdt. apply (ab_halts (LA := exact_LA) (HE := exr_E false) (exr_fun f) a b dt y); [exact (total_returns _ _ _ (exr_total f) Hf)|exact Hab|exact Hdt|lia|left; reflexivity].
Qed.
Lemma al_super : superposes 2 2 3 ce_lin ce_forced ce_sum /\
  exists f1 f2 f3 w1 w2 w3 r1 r2 r3, al_run ce_lin f1 0 1 (1 / 4) [1; 0] = (w1, Ok r1) /\ al_run ce_forced f2 0 1 (1 / 4) [0; 1] = (w2, Ok r2) /\
    al_run ce_sum f3 0 1 (1 / 4) (combination 2 2 3 [1; 0] [0; 1]) = (w3, Ok r3).
Proof.
  split; [exact ce_superposes|].
  destruct (al_halts ce_lin 0 1 (1 / 4) [1; 0]) as (f1 & w1 & r1 & A1); [intros t y _; reflexivity|lra|lra|].
  destruct (al_halts ce_forced 0 1 (1 / 4) [0; 1]) as (f2 & w2 & r2 & B1); [intros t y _; reflexivity|lra|lra|].
  destruct (al_halts ce_sum 0 1 (1 / 4) (combination 2 2 3 [1; 0] [0; 1])) as (f3 & w3 & r3 & C1); [intros t y _; reflexivity|lra|lra|].
  exists f1, f2, f3, w1, w2, w3, r1, r2, r3. auto.
Qed.

(** y' = cos y from 1 and y' = cos y + sin t / 100 from 1.1 *)
Definition ap_f (t : R) (y : list R) : list R := [cos (ventry y 0)].
Definition ap_g (t : R) (y : list R) : list R := [cos (ventry y 0) + sin t / 100].
Lemma ap_lipschitz t0 t1 : lipschitz_in 1 1 t0 t1 ap_f.
Proof.
  intros t y z e _ _ _ He q Hq. destruct q as [|q]; [|lia]. change (Rabs (cos (ventry y 0) - cos (ventry z 0)) <= 1 * e).
  eapply Rle_trans; [apply cos_slope|]. apply Rmult_le_compat_l; [lra|]. apply He; lia.
Qed.
Lemma ap_close t y q : (q < 1)%nat -> Rabs (ventry (ap_f t y) q - ventry (ap_g t y) q) <= 1 / 100.
Proof. intros Hq. destruct q as [|q]; [|lia]. change (Rabs (cos (ventry y 0) - (cos (ventry y 0) + sin t / 100)) <= 1 / 100). apply Rabs_le. pose proof (SIN_bound t). lra. Qed.
Lemma ap_runs : exists h, 0 < h /\ forall dt order, 0 < dt <= h -> (1 <= order <= 5)%Z -> exists f1 f2 w1 w2 r1 r2,
  ax_run 1 ap_f f1 0 2 dt [1] order = (w1, Ok r1) /\ ax_run 1 ap_g f2 0 2 dt [11 / 10] order = (w2, Ok r2).
Proof.
  destruct (ax_halts 1 ap_f 2) as (h1 & P1 & Q1); [lia|reflexivity| |].
  { intros t y p Hp. unfold ap_f, ventry. destruct p as [|p]; [|lia]. cbn [nth]. apply Rabs_le. pose proof (COS_bound (nth 0 y 0)). lra. }
  destruct (ax_halts 1 ap_g 2) as (h2 & P2 & Q2); [lia|reflexivity| |].
  { intros t y p Hp. unfold ap_g, ventry. destruct p as [|p]; [|lia]. cbn [nth]. apply Rabs_le. pose proof (COS_bound (nth 0 y 0)). pose proof (SIN_bound t). lra. }
  exists (Rmin h1 h2). split; [apply Rmin_glb_lt; lra|]. intros dt order Hdt Ho. pose proof (Rmin_l h1 h2). pose proof (Rmin_r h1 h2).
  destruct (Q1 0 2 dt [1] order eq_refl ltac:(lra) ltac:(lra) Ho) as (f1 & w1 & r1 & R1).
  destruct (Q2 0 2 dt [11 / 10] order eq_refl ltac:(lra) ltac:(lra) Ho) as (f2 & w2 & r2 & R2).
  exists f1, f2, w1, w2, r1, r2. split; assumption.
Qed.
