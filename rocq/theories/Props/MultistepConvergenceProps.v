(** Property theorems about the accuracy of the multistep solvers (C101, C102). *)
From Coq Require Import Reals Lra.
From Verif Require Import Model.Base Model.Scalar Model.LinAlg Model.Newton Model.Enums Model.Options Model.Irk Model.Multistep.
From Verif Require Import Spec.Sums Spec.Observe Spec.NewtonSpec Spec.IrkSpec Spec.IrkTotalSpec Spec.MultistepSpec Spec.ConvergenceSpec.
From Verif Require Import Proofs.ChoiceInstance Proofs.ChoiceLU Proofs.IrkTotalExamples Proofs.ConvergenceIrkExamples Proofs.ConvergenceAb Proofs.ConvergenceBdf Proofs.MultistepConvExamples.
Local Open Scope R_scope.

(** C101.  Adams-Bashforth converges: for f Lipschitz in y and a solution whose slope is Lipschitz, every recorded value up to t1
    is within C h of the solution, whatever the order k asked for ... *)
Theorem C101_ab_converges :
  forall k n f phi t0 t1 L K M, (1 <= k <= 5)%nat -> t0 < t1 -> 0 <= L -> solves n f t0 t1 phi -> lipschitz_in n L t0 t1 f -> slopes_steady n K M t0 t1 f phi ->
  exists C, 0 <= C /\
  forall (LA : LinAlg R) (HE : Env R) (St : Type) (F : functor R St), computes F f ->
  forall fuel dt w w' sol, adams_bashforth fuel F t0 t1 (phi t0) (Z.of_nat k) dt w = (w', Ok sol) ->
  forall i q, (i < length (bo_t_vals sol))%nat -> nth i (bo_t_vals sol) 0 <= t1 -> (q < n)%nat ->
  Rabs (ventry (nth i (bo_y_vals sol) []) q - ventry (phi (nth i (bo_t_vals sol) 0)) q) <= C * Rmin dt (t1 - t0).
Proof. exact ab_converges. Qed.
Print Assumptions C101_ab_converges.
(** ... and this is all: on y' = t, y(0) = 0, the error of every recorded value beyond the starting ones is at least h t / 2, for
    every order.  (Component p of a right-hand side of t alone.) *)
Theorem C101_ab_order_one_only :
  forall (LA : LinAlg R) (HE : Env R) (St : Type) (F : functor R St) f g p k t1 y0 fuel dt w w' sol,
  computes F f -> (forall t y, length y = length y0 -> f t y = g t) ->
  (p < length y0)%nat -> ventry y0 p = 0 -> (forall t, 0 <= t <= t1 -> ventry (g t) p = t) ->
  (1 <= k <= 5)%nat -> 0 < t1 -> adams_bashforth fuel F 0 t1 y0 (Z.of_nat k) dt w = (w', Ok sol) ->
  let h := Rmin dt (t1 - 0) in
  forall i, (k <= i < length (bo_t_vals sol))%nat -> let t := nth i (bo_t_vals sol) 0 in
  t ^ 2 / 2 - ventry (nth i (bo_y_vals sol) []) p = h * t / 2 + INR (k - 1) * INR (k - 2) / 2 * h ^ 2.
Proof. exact ab_not_better. Qed.
Print Assumptions C101_ab_order_one_only.
(** y' = (cos t, -cos t) on [0,2]: for every small dt there is a run of order 5, with an error of at most C dt; y' = (t, -t) on [0,1]
    (cut off outside): for every small dt there is a run of order 5. *)
Example C101_example :
  (exists h0 C, 0 < h0 <= 2 /\ forall dt, 0 < dt <= h0 -> exists fuel w' sol,
    @adams_bashforth R RScalar choice_LA it_E unit fuel (it_F cos) 0 2 (ic_phi 0) 5 dt (World tt []) = (w', Ok sol) /\
    forall i, (i < length (bo_t_vals sol))%nat -> nth i (bo_t_vals sol) 0 <= 2 -> Rabs (ventry (nth i (bo_y_vals sol) []) 0 - (1 + sin (nth i (bo_t_vals sol) 0))) <= C * dt) /\
  (exists hs, 0 < hs /\ forall dt, 0 < dt <= hs -> exists fuel w' sol,
    @adams_bashforth R RScalar choice_LA it_E unit fuel (it_F ramp) 0 1 [0; 0] 5 dt (World tt []) = (w', Ok sol)).
Proof.
  split.
  - destruct (C101_ab_converges 5 2 (it_f cos) ic_phi 0 2 0 1 1 ltac:(lia) ltac:(lra) ltac:(lra) ic_solves ic_lipschitz ic_steady) as (C & _ & HC).
    destruct (it_multistep_short cos it_cos) as (hs & Hs & Hr). exists (Rmin hs 2), C. split; [split; [apply Rmin_glb_lt; lra|apply Rmin_r]|].
    intros dt Hdt. assert (dt <= hs) by (eapply Rle_trans; [apply Hdt|apply Rmin_l]). assert (dt <= 2) by (eapply Rle_trans; [apply Hdt|apply Rmin_r]).
    destruct (proj1 (Hr 0 2 dt (ic_phi 0) 5%Z (World tt []) eq_refl ltac:(lra) ltac:(lra)) ltac:(lia)) as (fuel & w' & sol & E). exists fuel, w', sol. split; [exact E|].
    intros i Hi Hti. pose proof (HC choice_LA it_E unit (it_F cos) (it_computes cos) fuel dt (World tt []) w' sol E i 0%nat Hi Hti ltac:(lia)) as X.
    rewrite Rmin_left in X by lra. exact X.
  - destruct (it_multistep_short ramp ramp_bound) as (hs & Hs & Hr). exists hs. split; [exact Hs|]. intros dt Hdt.
    exact (proj1 (Hr 0 1 dt [0; 0] 5%Z (World tt []) eq_refl ltac:(lra) Hdt) ltac:(lia)).
Qed.

(** C102.  BDF converges: for small steps every recorded value up to t1 is within C (h + 1e-10) of the solution (1e-10 is where
    Newton's iteration stops), whatever the order k asked for ... *)
Theorem C102_bdf_converges :
  forall k n f phi t0 t1 L K M, (1 <= k <= 6)%nat -> t0 < t1 -> 0 <= L -> solves n f t0 t1 phi -> lipschitz_in n L t0 t1 f -> slopes_steady n K M t0 t1 f phi ->
  exists h0 C, 0 < h0 /\ 0 <= C /\
  forall (LA : LinAlg R) (HP : ExactProducts LA) (HX : ExactSolve LA) (HN : ExactNorm LA) (HE : Env R) (St : Type) (F : functor R St), computes F f -> jac_matrices F ->
  (forall t y J, jac_answers F t y J -> nrows J = n -> ncols J = n -> forall p q, (p < n)%nat -> (q < n)%nat -> Rabs (mentry J p q) <= L) ->
  forall fuel dt w w' sol, bdf fuel F t0 t1 (phi t0) (Z.of_nat k) dt w = (w', Ok sol) -> 0 < dt ->
  let h := Rmin dt (t1 - t0) in h <= h0 ->
  forall i q, (i < length (bo_t_vals sol))%nat -> nth i (bo_t_vals sol) 0 <= t1 -> (q < n)%nat ->
  Rabs (ventry (nth i (bo_y_vals sol) []) q - ventry (phi (nth i (bo_t_vals sol) 0)) q) <= C * (h + 1 / 10000000000).
Proof. exact bdf_converges. Qed.
Print Assumptions C102_bdf_converges.
(** ... and this is all: on y' = 1 some value among any k consecutive ones, from the last starting value on, is off by more than
    2/5 h, for every order.  (Component p of a constant right-hand side.) *)
Theorem C102_bdf_order_one_only :
  forall (LA : LinAlg R) (HP : ExactProducts LA) (HX : ExactSolve LA) (HN : ExactNorm LA) (HE : Env R) (St : Type) (F : functor R St) f c p k t0 t1 y0 fuel dt w w' sol,
  computes F f -> jac_matrices F -> (forall t y, length y = length y0 -> f t y = c) ->
  (forall t y J, jac_answers F t y J -> forall i j, (i < length y0)%nat -> (j < length y0)%nat -> mentry J i j = 0) ->
  (p < length y0)%nat -> ventry c p = 1 -> (1 <= k <= 6)%nat -> t0 < t1 -> 0 < dt ->
  bdf fuel F t0 t1 y0 (Z.of_nat k) dt w = (w', Ok sol) ->
  let h := Rmin dt (t1 - t0) in
  forall i, (k <= i < length (bo_t_vals sol))%nat ->
  exists j, (i < j + k)%nat /\ (j <= i)%nat /\ 2 / 5 * h < Rabs (ventry (nth j (bo_y_vals sol) []) p - (ventry y0 p + (nth j (bo_t_vals sol) 0 - t0))).
Proof. exact bdf_not_better. Qed.
Print Assumptions C102_bdf_order_one_only.
Example C102_example :
  (exists h0 C, 0 < h0 <= 2 /\ forall dt, 0 < dt <= h0 -> exists fuel w' sol,
    @bdf R RScalar choice_LA it_E unit fuel (it_F cos) 0 2 (ic_phi 0) 6 dt (World tt []) = (w', Ok sol) /\
    forall i, (i < length (bo_t_vals sol))%nat -> nth i (bo_t_vals sol) 0 <= 2 -> Rabs (ventry (nth i (bo_y_vals sol) []) 0 - (1 + sin (nth i (bo_t_vals sol) 0))) <= C * (dt + 1 / 10000000000)) /\
  (exists hs, 0 < hs /\ forall dt, 0 < dt <= hs -> exists fuel w' sol,
    @bdf R RScalar choice_LA it_E unit fuel (it_F (fun _ => 1)) 0 1 [0; 0] 6 dt (World tt []) = (w', Ok sol)).
Proof.
  split.
  - destruct (C102_bdf_converges 6 2 (it_f cos) ic_phi 0 2 0 1 1 ltac:(lia) ltac:(lra) ltac:(lra) ic_solves ic_lipschitz ic_steady) as (h0 & C & Hh0 & _ & HC).
    destruct (it_multistep_short cos it_cos) as (hs & Hs & Hr). exists (Rmin (Rmin hs h0) 2), C. split; [split; [repeat apply Rmin_glb_lt; lra|apply Rmin_r]|].
    intros dt (Hd0 & Hdt). assert (H2 : dt <= 2) by (eapply Rle_trans; [exact Hdt|apply Rmin_r]). assert (H1 : dt <= Rmin hs h0) by (eapply Rle_trans; [exact Hdt|apply Rmin_l]).
    assert (H3 : dt <= hs) by (eapply Rle_trans; [exact H1|apply Rmin_l]). assert (H4 : dt <= h0) by (eapply Rle_trans; [exact H1|apply Rmin_r]).
    destruct (proj2 (Hr 0 2 dt (ic_phi 0) 6%Z (World tt []) eq_refl ltac:(lra) ltac:(lra)) ltac:(lia)) as (fuel & w' & sol & E). exists fuel, w', sol. split; [exact E|].
    assert (Em : Rmin dt (2 - 0) = dt) by (apply Rmin_left; lra).
    intros i Hi Hti. pose proof (HC choice_LA _ _ _ it_E unit (it_F cos) (it_computes cos) (it_matrices cos)
      ltac:(intros t y J HJ _ _ p q Hp Hq; rewrite (it_zero cos t y J p q HJ Hp Hq), Rabs_R0; lra) fuel dt (World tt []) w' sol E Hd0) as X.
    cbv zeta in X. rewrite Em in X. exact (X H4 i 0%nat Hi Hti ltac:(lia)).
  - destruct (it_multistep_short (fun _ => 1) ltac:(intros; apply Rabs_le; lra)) as (hs & Hs & Hr). exists hs. split; [exact Hs|]. intros dt Hdt.
    exact (proj2 (Hr 0 1 dt [0; 0] 6%Z (World tt []) eq_refl ltac:(lra) Hdt) ltac:(lia)).
Qed.
