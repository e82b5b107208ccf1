(** Concrete problems beside C132 and C133, and the linear problem beside C78. *)
From Coq Require Import Reals Lra.
From Verif Require Import Model.Base Model.Scalar Model.LinAlg Model.Newton Model.Enums Model.Options Model.Irk Model.Multistep.
From Verif Require Import Spec.Sums Spec.Observe Spec.NewtonSpec Spec.IrkSpec Spec.IrkTotalSpec Spec.MultistepSpec Spec.Covariance Spec.StabilitySpec Spec.BdfLinearSpec.
From Verif Require Import Proofs.SumsProofs Proofs.RVec Proofs.IrkBounded Proofs.ChoiceInstance Proofs.ChoiceLU Proofs.IrkTotalExamples Proofs.IrkShortNear Proofs.BdfLinear.
Local Open Scope R_scope.

(** y' = A(t) y + g(t) with its own matrix as Jacobian *)
Definition la_F (n : nat) (A : R -> nat -> nat -> R) (g : R -> nat -> R) : functor R unit := Functor (fun t y => ret (affine_rhs n A g t y)) (fun t y => ret (mtab n n (A t))).
Definition la_bdf (n : nat) A g (fuel : nat) (a b dt : R) (y : list R) (order : Z) := @bdf R RScalar choice_LA it_E unit fuel (la_F n A g) a b y order dt (World tt []).
Definition la_ab (n : nat) A g (fuel : nat) (a b dt : R) (y : list R) (order : Z) := @adams_bashforth R RScalar choice_LA it_E unit fuel (la_F n A g) a b y order dt (World tt []).
Lemma la_jac n A g t y J : jac_answers (la_F n A g) t y J -> J = mtab n n (A t).
Proof. intros (s & s' & E). injection E as _ <-. reflexivity. Qed.
Lemma la_problem n A g : (0 < n)%nat -> affine_problem (la_F n A g) n A g.
Proof.
  intros Hn. split; [intros t y s v Hv; injection Hv as <-; reflexivity|]. intros t y J Ha. rewrite (la_jac _ _ _ _ _ _ Ha).
  split; [apply mtab_nrows|]. split; [apply mtab_ncols; lia|]. split; [apply mtab_wf|]. intros p q Hp Hq. apply mentry_vt; assumption.
Qed.
Lemma la_halts n A g K C V : (0 < n)%nat -> 0 <= K -> (forall t p q, (p < n)%nat -> (q < n)%nat -> Rabs (A t p q) <= K) -> (forall t p, (p < n)%nat -> Rabs (g t p) <= C) ->
  exists hs, 0 < hs /\ forall a b dt y order, length y = n -> (forall p, (p < n)%nat -> Rabs (ventry y p) <= V) -> a < b -> 0 < dt <= hs ->
    ((1 <= order <= 5)%Z -> exists fuel w sol, la_ab n A g fuel a b dt y order = (w, Ok sol)) /\
    ((1 <= order <= 6)%Z -> exists fuel w sol, la_bdf n A g fuel a b dt y order = (w, Ok sol)).
Proof.
  intros Hn HK HA Hg.
  destruct (multistep_near (LA := choice_LA) (HE := it_E) (la_F n A g) (affine_rhs n A g) n (fun y => forall p, (p < n)%nat -> Rabs (ventry y p) <= V) 1 (INR n * (K * (V + 1)) + C) K) as (hs & Hhs & H).
  - reflexivity.
  - exact Hn.
  - exact HK.
  - intros t y s _. exists s, (affine_rhs n A g t y). split; [reflexivity|apply vtab_length].
  - apply (la_problem n A g Hn).
  - intros t y s _. exists s, (mtab n n (A t)). split; [reflexivity|]. split; [apply mtab_nrows|]. split; [apply mtab_ncols; lia|apply mtab_wf].
  - intros t y J Ha. rewrite (la_jac _ _ _ _ _ _ Ha). apply mtab_wf.
  - lra.
  - split.
    + intros t y x s s' v p Ly HV Lx Hxy Hv Hp. injection Hv as _ <-. unfold affine_rhs. rewrite ventry_vt by exact Hp.
      eapply Rle_trans; [apply Rabs_triang|]. apply Rplus_le_compat; [|apply Hg, Hp]. apply Rsum_bound. intros q Hq. rewrite Rabs_mult.
      apply Rmult_le_compat; try apply Rabs_pos; [apply HA; assumption|]. pose proof (HV q Hq) as H1. pose proof (Hxy q Hq) as H2.
      replace (ventry x q) with (ventry y q + (ventry x q - ventry y q)) by ring. pose proof (Rabs_triang (ventry y q) (ventry x q - ventry y q)). lra.
    + intros t y J p q _ _ Ha Hp Hq. rewrite (la_jac _ _ _ _ _ _ Ha), mentry_vt by assumption. apply HA; assumption.
  - intros t y J p q Ha Hp Hq. rewrite (la_jac _ _ _ _ _ _ Ha), mentry_vt by assumption. apply HA; assumption.
  - exists hs. split; [exact Hhs|]. intros a b dt y order Ly HV Hab Hdt. exact (H a b dt y order (World tt []) Ly HV Hab Hdt).
Qed.

(** an oscillator that is damped, stiff, and whose frequency swings *)
Definition lo_A (t : R) (p q : nat) : R := match p, q with 0%nat, 1%nat => - 1000 * cos t | 1%nat, 0%nat => 1000 * cos t | _, _ => - 1 end.
Definition lo_g (t : R) (p : nat) : R := match p with 0%nat => sin t | _ => 1 end.
Lemma lo_damped t : damped_by 1 2 (lo_A t).
Proof. intros x. cbn [Rsum lo_A]. right. ring. Qed.
Lemma lo_bound t p q : (p < 2)%nat -> (q < 2)%nat -> Rabs (lo_A t p q) <= 1000.
Proof. intros Hp Hq. pose proof (COS_bound t). destruct p as [|[|p]]; [| |lia]; (destruct q as [|[|q]]; [| |lia]); apply Rabs_le; unfold lo_A; lra. Qed.
Lemma lo_gbound t p : Rabs (lo_g t p) <= 1.
Proof. pose proof (SIN_bound t). destruct p as [|p]; apply Rabs_le; unfold lo_g; lra. Qed.
Lemma lo_runs g C : (forall t p, (p < 2)%nat -> Rabs (g t p) <= C) -> exists h, 0 < h /\ forall dt order, 0 < dt <= h ->
  ((1 <= order <= 5)%Z -> exists fuel w sol, la_ab 2 lo_A g fuel 0 100 dt [3; 4] order = (w, Ok sol)) /\
  ((1 <= order <= 6)%Z -> exists fuel w sol, la_bdf 2 lo_A g fuel 0 100 dt [3; 4] order = (w, Ok sol)).
Proof.
  intros Hg. destruct (la_halts 2 lo_A g 1000 C 4 ltac:(lia) ltac:(lra) lo_bound Hg) as (h & Hh & H). exists h. split; [exact Hh|]. intros dt order Hdt.
  apply H; [reflexivity| |lra|exact Hdt]. intros p Hp. destruct p as [|[|p]]; [| |lia]; apply Rabs_le; unfold ventry; cbn [nth]; lra.
Qed.
Lemma lo_damped_runs : affine_problem (la_F 2 lo_A (fun _ _ => 0)) 2 lo_A (fun _ _ => 0) /\ (forall t, damped_by 1 2 (lo_A t)) /\
  exists h, 0 < h /\ forall dt order, 0 < dt <= h -> (1 <= order <= 6)%Z -> exists fuel w sol, la_bdf 2 lo_A (fun _ _ => 0) fuel 0 100 dt [3; 4] order = (w, Ok sol).
Proof.
  split; [apply la_problem; lia|]. split; [exact lo_damped|]. destruct (lo_runs (fun _ _ => 0) 0) as (h & Hh & H); [intros; rewrite Rabs_R0; lra|].
  exists h. split; [exact Hh|]. intros dt order Hdt Ho. apply H; assumption.
Qed.

(** the forced oscillator in other variables and units: z = 2 y + 3, tau = 10 t + 5 *)
Definition lo_M (q p : nat) : R := if Nat.eq_dec p q then 2 else 0.
Definition lo_B (t : R) (p q : nat) : R := lo_A ((t - 5) / 10) p q / 10.
Definition lo_k (t : R) (p : nat) : R := (2 * lo_g ((t - 5) / 10) p - Rsum 2 (fun q => lo_A ((t - 5) / 10) p q * 3)) / 10.
Lemma lo_conjugate : conjugate 2 2 lo_M (fun _ => 3) 10 5 (affine_rhs 2 lo_A lo_g) (affine_rhs 2 lo_B lo_k).
Proof.
  intros t y Hy. unfold affine_rhs, affine_map, linear_map, lo_B, lo_k, vtab, lo_M, ventry. cbn [map seq Rsum nth Nat.eq_dec].
  replace ((10 * t + 5 - 5) / 10) with t by field. f_equal; [|f_equal]; cbn; field.
Qed.
Lemma lo_solvable c : 0 <= c -> bdf_solvable 2 c lo_A.
Proof. intros Hc. apply (damped_solvable 2 1); [lra|exact Hc|exact lo_damped]. Qed.
Lemma lo_B_solvable c : 0 <= c -> bdf_solvable 2 c lo_B.
Proof.
  intros Hc. apply (damped_solvable 2 (1 / 10)); [lra|exact Hc|]. intros t x. pose proof (lo_damped ((t - 5) / 10) x) as H. cbn [Rsum] in * . unfold lo_B. lra.
Qed.
Lemma lo_B_bound t p q : (p < 2)%nat -> (q < 2)%nat -> Rabs (lo_B t p q) <= 100.
Proof. intros Hp Hq. unfold lo_B, Rdiv. rewrite Rabs_mult, (Rabs_right (/ 10)) by lra. pose proof (lo_bound ((t - 5) * / 10) p q Hp Hq). lra. Qed.
Lemma lo_k_bound t p : (p < 2)%nat -> Rabs (lo_k t p) <= 1000.
Proof.
  intros Hp. pose proof (COS_bound ((t - 5) / 10)). pose proof (SIN_bound ((t - 5) / 10)). unfold lo_k. cbn [Rsum]. destruct p as [|[|p]]; [| |lia]; apply Rabs_le; unfold lo_g, lo_A; lra.
Qed.
Lemma lo_affine : conjugate 2 2 lo_M (fun _ => 3) 10 5 (affine_rhs 2 lo_A lo_g) (affine_rhs 2 lo_B lo_k) /\ [9; 11] = affine_map 2 2 lo_M (fun _ => 3) [3; 4] /\
  (forall c, 0 <= c -> bdf_solvable 2 c lo_A /\ bdf_solvable 2 (10 * c) lo_B) /\
  exists h, 0 < h /\ forall dt order, 0 < dt <= h -> (1 <= order <= 6)%Z -> exists f1 f3 w1 w3 r1 r3,
    la_bdf 2 lo_A lo_g f1 0 100 dt [3; 4] order = (w1, Ok r1) /\ la_bdf 2 lo_B lo_k f3 (10 * 0 + 5) (10 * 100 + 5) (10 * dt) [9; 11] order = (w3, Ok r3).
Proof.
  split; [exact lo_conjugate|]. split; [unfold affine_map, vtab, lo_M, ventry; cbn; f_equal; [|f_equal]; lra|].
  split; [intros c Hc; split; [apply lo_solvable, Hc|apply lo_B_solvable; lra]|].
  destruct (lo_runs lo_g 1 (fun t p _ => lo_gbound t p)) as (h1 & P1 & Q1).
  destruct (la_halts 2 lo_B lo_k 100 1000 11 ltac:(lia) ltac:(lra) lo_B_bound lo_k_bound) as (h2 & P2 & Q2).
  exists (Rmin h1 (h2 / 10)). split; [apply Rmin_glb_lt; lra|]. intros dt order Hdt Ho. pose proof (Rmin_l h1 (h2 / 10)). pose proof (Rmin_r h1 (h2 / 10)).
  destruct (proj2 (Q1 dt order ltac:(lra)) Ho) as (f1 & w1 & r1 & R1).
  assert (HV : forall p, (p < 2)%nat -> Rabs (ventry [9; 11] p) <= 11) by (intros p Hp; destruct p as [|[|p]]; [| |lia]; apply Rabs_le; unfold ventry; cbn [nth]; lra).
  destruct (proj2 (Q2 (10 * 0 + 5) (10 * 100 + 5) (10 * dt) [9; 11] order eq_refl HV ltac:(lra) ltac:(lra)) Ho) as (f3 & w3 & r3 & R3).
  exists f1, f3, w1, w3, r1, r3. split; assumption.
Qed.
(** twice the forced oscillator and three times the free one *)
Definition lo_sum (t : R) (p : nat) : R := 2 * lo_g t p + 3 * 0.
Lemma lo_super : (forall c, 0 <= c -> bdf_solvable 2 c lo_A) /\
  affine_problem (la_F 2 lo_A lo_g) 2 lo_A lo_g /\ affine_problem (la_F 2 lo_A (fun _ _ => 0)) 2 lo_A (fun _ _ => 0) /\ affine_problem (la_F 2 lo_A lo_sum) 2 lo_A lo_sum /\
  exists h, 0 < h /\ forall dt order, 0 < dt <= h -> (1 <= order <= 6)%Z -> exists f1 f2 f3 w1 w2 w3 r1 r2 r3,
    la_bdf 2 lo_A lo_g f1 0 100 dt [3; 4] order = (w1, Ok r1) /\ la_bdf 2 lo_A (fun _ _ => 0) f2 0 100 dt [3; 4] order = (w2, Ok r2) /\
    la_bdf 2 lo_A lo_sum f3 0 100 dt (combination 2 2 3 [3; 4] [3; 4]) order = (w3, Ok r3).
Proof.
  split; [exact lo_solvable|]. split; [apply la_problem; lia|]. split; [apply la_problem; lia|]. split; [apply la_problem; lia|].
  destruct (lo_runs lo_g 1 (fun t p _ => lo_gbound t p)) as (h1 & P1 & Q1). destruct (lo_runs (fun _ _ => 0) 0) as (h2 & P2 & Q2); [intros; rewrite Rabs_R0; lra|].
  destruct (la_halts 2 lo_A lo_sum 1000 2 20 ltac:(lia) ltac:(lra) lo_bound) as (h3 & P3 & Q3).
  { intros t p _. unfold lo_sum. rewrite Rmult_0_r, Rplus_0_r, Rabs_mult, (Rabs_right 2) by lra. pose proof (lo_gbound t p). lra. }
  exists (Rmin h1 (Rmin h2 h3)). split; [repeat apply Rmin_glb_lt; lra|]. intros dt order Hdt Ho.
  pose proof (Rmin_l h1 (Rmin h2 h3)). pose proof (Rmin_r h1 (Rmin h2 h3)). pose proof (Rmin_l h2 h3). pose proof (Rmin_r h2 h3).
  destruct (proj2 (Q1 dt order ltac:(lra)) Ho) as (f1 & w1 & r1 & R1). destruct (proj2 (Q2 dt order ltac:(lra)) Ho) as (f2 & w2 & r2 & R2).
  assert (HV : forall p, (p < 2)%nat -> Rabs (ventry (combination 2 2 3 [3; 4] [3; 4]) p) <= 20) by (intros p Hp; unfold combination; rewrite ventry_vt by exact Hp; unfold ventry; destruct p as [|[|p]]; [| |lia]; apply Rabs_le; cbn [nth]; lra).
  destruct (proj2 (Q3 0 100 dt (combination 2 2 3 [3; 4] [3; 4]) order (vtab_length _ _) HV ltac:(lra) ltac:(lra)) Ho) as (f3 & w3 & r3 & R3).
  exists f1, f2, f3, w1, w2, w3, r1, r2, r3. auto.
Qed.
