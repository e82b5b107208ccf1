(** Property theorems: the BDF solver of order 1 and 2 on nonlinear problems whose solutions do not move apart (C134), and BDF runs on
    nearby problems (C135). *)
From Coq Require Import Reals Lra.
From Verif Require Import Model.Base Model.Scalar Model.LinAlg Model.Newton Model.Enums Model.Options Model.Irk Model.Multistep.
From Verif Require Import Spec.Sums Spec.Observe Spec.NewtonSpec Spec.IrkSpec Spec.IrkTotalSpec Spec.MultistepSpec Spec.ConvergenceSpec Spec.StabilitySpec Spec.BdfStabilitySpec.
From Verif Require Import Proofs.ChoiceInstance Proofs.IrkTotalExamples Proofs.BdfStability Proofs.BdfDependence Proofs.BdfStabilityExamples.
Local Open Scope R_scope.

(** C134.  Two runs of the BDF solver with order 1 or 2 on a nonlinear problem whose solutions do not move apart, from different
    initial values, with the same step: their i-th times are equal, and their distance there is at most sqrt(order) times that of the
    initial values, for every step size and however stiff the problem, but for what the tolerance 1e-10 of Newton's iteration leaves
    (which grows with the length of the interval, not with the number of steps). *)
Theorem C134_bdf_contractive :
  forall (LA : LinAlg R) (HP : ExactProducts LA) (HX : ExactSolve LA) (HN : ExactNorm LA) (HE : Env R) (St : Type)
    (F : functor R St) f n kappa,
  computes F f -> jac_matrices F -> 0 <= kappa -> jac_error F n f kappa ->
  forall fuel t0 t1 y0 order dt w w' sol fuel2 z0 v v' sol2,
  contractive n f -> length y0 = n -> length z0 = n -> (order = 1 \/ order = 2)%Z -> t0 < t1 -> 0 < dt ->
  bdf fuel F t0 t1 y0 order dt w = (w', Ok sol) -> bdf fuel2 F t0 t1 z0 order dt v = (v', Ok sol2) ->
  forall i, (i < length (bo_y_vals sol))%nat -> (i < length (bo_y_vals sol2))%nat ->
    nth i (bo_t_vals sol2) 0 = nth i (bo_t_vals sol) 0 /\
    dist n (nth i (bo_y_vals sol) []) (nth i (bo_y_vals sol2) []) <=
      sqrt (IZR order) * dist n y0 z0 + 8 * (kappa * (sqrt (INR n) * (1 / 10000000000))) * (nth i (bo_t_vals sol) 0 - t0).
Proof. exact (fun LA HP HX HN HE St => @bdf_contractive LA HP HX HN HE St). Qed.
Print Assumptions C134_bdf_contractive.

(** C134.  And if no solution moves away from c, no value of the run is further from c than sqrt(order) times the initial value,
    up to the same tolerance. *)
Theorem C134_bdf_attracted :
  forall (LA : LinAlg R) (HP : ExactProducts LA) (HX : ExactSolve LA) (HN : ExactNorm LA) (HE : Env R) (St : Type)
    (F : functor R St) f n kappa,
  computes F f -> jac_matrices F -> 0 <= kappa -> jac_error F n f kappa ->
  forall c fuel t0 t1 y0 order dt w w' sol,
  attracted_to n f c -> length y0 = n -> (order = 1 \/ order = 2)%Z -> t0 < t1 -> 0 < dt ->
  bdf fuel F t0 t1 y0 order dt w = (w', Ok sol) ->
  forall i, (i < length (bo_y_vals sol))%nat ->
    dist n (nth i (bo_y_vals sol) []) c <=
      sqrt (IZR order) * dist n y0 c + 4 * (kappa * (sqrt (INR n) * (1 / 10000000000))) * (nth i (bo_t_vals sol) 0 - t0).
Proof. exact (fun LA HP HX HN HE St => @bdf_attracted LA HP HX HN HE St). Qed.
Print Assumptions C134_bdf_attracted.

(** y' = - 2 y + sin y + 5 cos t from 3 and from -1, and y' = - 2 y + sin y from 3, on [0, 100]: the hypotheses hold and the runs return *)
Example C134_example :
  computes (bs_F 5) (bs_f 5) /\ jac_matrices (bs_F 5) /\ jac_error (bs_F 5) 1 (bs_f 5) 2 /\ contractive 1 (bs_f 5) /\ attracted_to 1 (bs_f 0) [0] /\
  forall a, exists h, 0 < h /\ forall dt y0 order, Rabs y0 <= 3 -> 0 < dt <= h -> (order = 1 \/ order = 2)%Z ->
    exists fuel w sol, @bdf R RScalar choice_LA it_E unit fuel (bs_F a) 0 100 [y0] order dt (World tt []) = (w, Ok sol).
Proof.
  split; [apply bs_computes|]. split; [apply bs_matrices|]. split; [apply bs_jac_error|]. split; [apply bs_contractive|]. split; [apply bs_attracted; reflexivity|].
  intros a. destruct (bs_runs a 3) as (h & Hh & H). exists h. split; [exact Hh|]. intros dt y0 order Hy Hdt Ho. apply H; [exact Hy|lra|exact Hdt|lia].
Qed.

(** C135.  Two BDF runs of the same order on problems that differ by at most de, from initial values that differ by at most e, with
    the same short step: their i-th times are equal, and their i-th values differ by at most C (e + de + 1e-10), with one constant C
    and one bound h0 on the step for each order, dimension, Lipschitz constant and length of the interval. *)
Theorem C135_bdf_continuous_dependence :
  forall k n L T, (1 <= k <= 6)%nat -> 0 <= L -> 0 < T -> exists h0 C, 0 < h0 /\ 0 <= C /\
  forall f g t0 t1 e de, t1 - t0 = T -> lipschitz_in n L t0 t1 f -> lipschitz_in n L t0 t1 g -> 0 <= e -> 0 <= de ->
  (forall t y q, t0 <= t <= t1 -> length y = n -> (q < n)%nat -> Rabs (ventry (f t y) q - ventry (g t y) q) <= de) ->
  forall (L1 : LinAlg R) (P1 : ExactProducts L1) (X1 : ExactSolve L1) (N1 : ExactNorm L1) (E1 : Env R) (S1 : Type) (F : functor R S1)
    (L2 : LinAlg R) (P2 : ExactProducts L2) (X2 : ExactSolve L2) (N2 : ExactNorm L2) (E2 : Env R) (S2 : Type) (G : functor R S2),
  computes F f -> jac_matrices F -> computes G g -> jac_matrices G ->
  (forall t y J, jac_answers F t y J -> nrows J = n -> ncols J = n -> forall p q, (p < n)%nat -> (q < n)%nat -> Rabs (mentry J p q) <= L) ->
  (forall t y J, jac_answers G t y J -> nrows J = n -> ncols J = n -> forall p q, (p < n)%nat -> (q < n)%nat -> Rabs (mentry J p q) <= L) ->
  forall dt fu1 y w1 w1' r1 fu2 z w2 w2' r2, length y = n -> length z = n -> 0 < dt -> Rmin dt (t1 - t0) <= h0 ->
  @bdf R RScalar L1 E1 S1 fu1 F t0 t1 y (Z.of_nat k) dt w1 = (w1', Ok r1) ->
  @bdf R RScalar L2 E2 S2 fu2 G t0 t1 z (Z.of_nat k) dt w2 = (w2', Ok r2) ->
  (forall q, (q < n)%nat -> Rabs (ventry y q - ventry z q) <= e) ->
  forall i q, (i < length (bo_y_vals r1))%nat -> (i < length (bo_y_vals r2))%nat -> nth i (bo_t_vals r1) 0 <= t1 -> (q < n)%nat ->
  nth i (bo_t_vals r2) 0 = nth i (bo_t_vals r1) 0 /\
  Rabs (ventry (nth i (bo_y_vals r1) []) q - ventry (nth i (bo_y_vals r2) []) q) <= C * (e + de + 1 / 10000000000).
Proof. exact bdf_dependence. Qed.
Print Assumptions C135_bdf_continuous_dependence.
(** y' = - 2 y + sin y + 5 cos t from 3 and y' = - 2 y + sin y + 5.01 cos t from 3.1, on [0, 100] *)
Example C135_example :
  (forall t0 t1, lipschitz_in 1 3 t0 t1 (bs_f 5) /\ lipschitz_in 1 3 t0 t1 (bs_f (501 / 100))) /\
  (forall t y q, (q < 1)%nat -> Rabs (ventry (bs_f 5 t y) q - ventry (bs_f (501 / 100) t y) q) <= 1 / 100) /\
  (forall a t y J, jac_answers (bs_F a) t y J -> nrows J = 1%nat -> ncols J = 1%nat -> forall p q, (p < 1)%nat -> (q < 1)%nat -> Rabs (mentry J p q) <= 3) /\
  exists h, 0 < h /\ forall dt order, 0 < dt <= h -> (1 <= order <= 6)%Z -> exists fu1 fu2 w1 w2 r1 r2,
    @bdf R RScalar choice_LA it_E unit fu1 (bs_F 5) 0 100 [3] order dt (World tt []) = (w1, Ok r1) /\
    @bdf R RScalar choice_LA it_E unit fu2 (bs_F (501 / 100)) 0 100 [31 / 10] order dt (World tt []) = (w2, Ok r2).
Proof.
  split; [intros; split; apply bs_lipschitz|]. split.
  { intros t y q Hq. eapply Rle_trans; [apply bs_close; exact Hq|]. apply Rabs_le. lra. }
  split; [exact bs_jac_bound|]. destruct (bs_runs 5 4) as (h1 & H1 & G1). destruct (bs_runs (501 / 100) 4) as (h2 & H2 & G2).
  exists (Rmin h1 h2). split; [apply Rmin_glb_lt; assumption|]. intros dt order Hdt Ho. pose proof (Rmin_l h1 h2). pose proof (Rmin_r h1 h2).
  destruct (G1 0 100 dt 3 order) as (f1 & w1 & r1 & R1); [apply Rabs_le; lra|lra|lra|exact Ho|]. destruct (G2 0 100 dt (31 / 10) order) as (f2 & w2 & r2 & R2); [apply Rabs_le; lra|lra|lra|exact Ho|].
  exists f1, f2, w1, w2, r1, r2. split; assumption.
Qed.
