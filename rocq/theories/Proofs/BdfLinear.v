(** BDF runs on linear problems: superposition, changes of variables and units (C133), damped problems (C132). *)
From Coq Require Import Reals Lra.
From Verif Require Import Model.Base Model.Scalar Model.LinAlg Model.Newton Model.Enums Model.Options Model.Irk Model.Multistep.
From Verif Require Import Spec.Sums Spec.Observe Spec.NewtonSpec Spec.IrkSpec Spec.IrkTotalSpec Spec.MultistepSpec Spec.Covariance Spec.StabilitySpec Spec.BdfLinearSpec.
From Verif Require Import Proofs.SumsProofs Proofs.RVec Proofs.LinearKernel Proofs.AlgStable Proofs.MultistepProofs Proofs.MultistepResults Proofs.MultistepReal Proofs.MultistepOrders Proofs.Covariance Proofs.ConvergenceAb Proofs.AbCovariance.
Local Open Scope R_scope.

(** ** what is known of a run *)
Lemma bdf_facts (LA : LinAlg R) (HP : ExactProducts LA) (HX : ExactSolve LA) (HN : ExactNorm LA) (HE : Env R) (St : Type) (F : functor R St) A g fuel t0 t1 y0 order dt w w' sol :
  affine_problem F (length y0) A g -> t0 < t1 -> (1 <= order <= 6)%Z -> bdf fuel F t0 t1 y0 order dt w = (w', Ok sol) ->
  let h := Rmin dt (t1 - t0) in let k := Z.to_nat order in let N := length (bo_t_vals sol) in let ys := bo_y_vals sol in let n := length y0 in
  bdf_solvable n (h * bdf_beta k) A ->
  0 < h /\ (1 <= k <= 6)%nat /\ (S k <= N)%nat /\ length ys = N /\ (forall i, (i < N)%nat -> nth i (bo_t_vals sol) 0 = t0 + INR i * h) /\
  bo_status sol = SUCCESS /\ t1 <= t0 + INR (N - 1) * h /\ (N = S k \/ t0 + INR (N - 1) * h < t1 + h) /\
  (forall i, (i < N)%nat -> length (yval ys i) = n) /\ (forall i, (i <= k)%nat -> yval ys i = y0) /\
  forall i p, (k < i < N)%nat -> (p < n)%nat -> bdf_residual k (affine_rhs n A g) (t0 + INR i * h) h ys i (yval ys i) p = 0.
Proof.
  intros [HF HJ] Ht Ho E h k N ys n Hs.
  assert (HJm : jac_matrices F) by (intros t y J Ha; apply (HJ t y J Ha)).
  assert (Hinv : forall t y J, jac_answers F t y J -> nrows J = n -> ncols J = n -> invertible (bdf_matrix n (h * bdf_beta k) J)).
  { intros t y J Ha _ _. destruct (HJ t y J Ha) as (_ & _ & _ & EJ). pose proof (Hs t) as Hi. replace (bdf_matrix n (h * bdf_beta k) J) with (bdf_matrix n (h * bdf_beta k) (mtab n n (A t))); [exact Hi|].
    unfold bdf_matrix. apply mtab_ext. intros p q Hp Hq. rewrite mentry_vt, EJ by assumption. reflexivity. }
  pose proof (bdf_times _ _ _ _ _ _ _ _ _ _ E Ho) as (HNl & Htv & HkN & Hlt & Hend).
  destruct (bdf_affine_both LA HP HX HN HE St F _ HF HJm _ _ _ _ _ _ _ _ _ E Ho Hinv A g) as (Hst & Hres).
  { intros t y i Ly Hi. unfold affine_rhs. rewrite ventry_vt by exact Hi. reflexivity. }
  { intros t y J Ha p q Hp Hq. apply (HJ t y J Ha); assumption. }
  pose proof (@bdf_newton_both LA HP HX HE St F _ HF HJm _ _ _ _ _ _ _ _ _ E Ho Hinv) as (Hlen & _).
  pose proof (bdf_starting _ _ _ _ _ _ _ _ _ _ E Ho) as (_ & Hstart & _).
  cbv zeta in * . fold h k N ys n in HNl, Htv, HkN, Hlt, Hend, Hres, Hlen, Hstart.
  assert (Hk : (1 <= k <= 6)%nat) by (unfold k; lia).
  destruct Hend as [(_ & Hend)|(Hend & _)]; [|rewrite Hst in Hend; discriminate Hend].
  pose proof (Htv (N - 1)%nat ltac:(lia)) as HtvN. rewrite HtvN in Hend. rewrite HtvN in Hlt. clear HtvN.
  assert (Hh : 0 < h). { pose proof (pos_INR (N - 1)). destruct (Rle_dec h 0); [nra|lra]. }
  rewrite HNl in Hlen, Hres.
  split; [exact Hh|]. split; [exact Hk|]. split; [lia|]. split; [exact HNl|]. split; [exact Htv|]. split; [exact Hst|]. split; [exact Hend|]. split; [exact Hlt|]. split; [exact Hlen|]. split.
  - intros j Hj. unfold yval. rewrite <- (firstn_skipn (S k) ys). rewrite Hstart, app_nth1 by (rewrite repeat_length; lia). apply nth_repeat_lt. lia.
  - intros i p Hi Hp. apply Hres; assumption.
Qed.

(** the solution of the BDF equation is unique *)
Lemma bdf_unique n c A g t r x z : bdf_solvable n c A -> length x = n -> length z = n ->
  (forall p, (p < n)%nat -> ventry x p + r p - c * ventry (affine_rhs n A g t x) p = 0) -> (forall p, (p < n)%nat -> ventry z p + r p - c * ventry (affine_rhs n A g t z) p = 0) -> x = z.
Proof.
  intros Hs Lx Lz Hx Hz. assert (E0 : forall p, (p < n)%nat -> ventry (vtab n (fun p => ventry x p - ventry z p)) p = 0).
  { apply (kernel_zero n c (mtab n n (A t)) _ (Hs t)). intros p Hp. pose proof (Hx p Hp) as H1. pose proof (Hz p Hp) as H2. unfold affine_rhs in H1, H2. rewrite ventry_vt in H1, H2 by exact Hp. rewrite ventry_vt by exact Hp.
    rewrite (Rsum_ext n _ (fun q => A t p q * ventry x q - A t p q * ventry z q)) by (intros q Hq; rewrite mentry_vt, ventry_vt by assumption; ring).
    rewrite Rsum_minus. lra. }
  apply (nth_ext _ _ 0 0); [congruence|]. intros p Hp. rewrite Lx in Hp. specialize (E0 p Hp). rewrite ventry_vt in E0 by exact Hp. fold (ventry x p) (ventry z p). lra.
Qed.

(** ** v + M1 y1 + M2 y2 of two runs *)
Section Runs.
  Context {E1 E2 E3 : Env R} {L1 L2 L3 : LinAlg R} {P1 : ExactProducts L1} {P2 : ExactProducts L2} {P3 : ExactProducts L3} {X1 : ExactSolve L1} {X2 : ExactSolve L2} {X3 : ExactSolve L3}
    {N1 : ExactNorm L1} {N2 : ExactNorm L2} {N3 : ExactNorm L3} {S1 S2 S3 : Type}.
  Variables (F1 : functor R S1) (F2 : functor R S2) (F3 : functor R S3) (A1 A2 A3 : R -> nat -> nat -> R) (g1 g2 g3 : R -> nat -> R).
  Variables (M1 M2 : nat -> nat -> R) (v : nat -> R) (sc sh : R) (order : Z).
  Hypothesis Hsc : 0 < sc.
  Hypothesis Ho : (1 <= order <= 6)%Z.
  Lemma bdf_combine t0 t1 dt fu1 y1 w1 w1' r1 fu2 y2 w2 w2' r2 fu3 z w3 w3' r3 : t0 < t1 ->
    affine_problem F1 (length y1) A1 g1 -> affine_problem F2 (length y2) A2 g2 -> affine_problem F3 (length z) A3 g3 ->
    (let c := Rmin dt (t1 - t0) * bdf_beta (Z.to_nat order) in bdf_solvable (length y1) c A1 /\ bdf_solvable (length y2) c A2 /\ bdf_solvable (length z) (sc * c) A3) ->
    (forall t u1 u2, length u1 = length y1 -> length u2 = length y2 ->
      affine_rhs (length z) A3 g3 (sc * t + sh) (comb (length y1) (length y2) (length z) M1 M2 v u1 u2) =
      vtab (length z) (fun q => (Rsum (length y1) (fun p => M1 q p * ventry (affine_rhs (length y1) A1 g1 t u1) p) + Rsum (length y2) (fun p => M2 q p * ventry (affine_rhs (length y2) A2 g2 t u2) p)) / sc)) ->
    @bdf R RScalar L1 E1 S1 fu1 F1 t0 t1 y1 order dt w1 = (w1', Ok r1) ->
    @bdf R RScalar L2 E2 S2 fu2 F2 t0 t1 y2 order dt w2 = (w2', Ok r2) ->
    @bdf R RScalar L3 E3 S3 fu3 F3 (sc * t0 + sh) (sc * t1 + sh) z order (sc * dt) w3 = (w3', Ok r3) ->
    z = comb (length y1) (length y2) (length z) M1 M2 v y1 y2 ->
    bo_t_vals r2 = bo_t_vals r1 /\ bo_t_vals r3 = map (fun t => sc * t + sh) (bo_t_vals r1) /\
    forall k, (k < length (bo_t_vals r1))%nat -> nth k (bo_y_vals r3) [] = comb (length y1) (length y2) (length z) M1 M2 v (nth k (bo_y_vals r1) []) (nth k (bo_y_vals r2) []).
  Proof.
    intros Ht H1 H2 H3 Hsol Hg R1 R2 R3 Hz. cbv zeta in Hsol. destruct Hsol as (O1 & O2 & O3).
    assert (E : Rmin (sc * dt) (sc * t1 + sh - (sc * t0 + sh)) = sc * Rmin dt (t1 - t0)).
    { replace (sc * t1 + sh - (sc * t0 + sh)) with (sc * (t1 - t0)) by ring. unfold Rmin. destruct (Rle_dec dt (t1 - t0)) as [L|L].
      - destruct (Rle_dec (sc * dt) (sc * (t1 - t0))) as [Q|Q]; [reflexivity|]. destruct Q. apply Rmult_le_compat_l; lra.
      - destruct (Rle_dec (sc * dt) (sc * (t1 - t0))) as [Q|Q]; [|reflexivity]. apply Rmult_le_reg_l in Q; [lra|exact Hsc]. }
    pose proof (@bdf_facts L1 P1 X1 N1 E1 S1 F1 A1 g1 _ _ _ _ _ _ _ _ _ H1 Ht Ho R1) as A. cbv zeta in A. destruct (A O1) as (Hh & Hk & K1 & Y1 & T1 & _ & B1 & C1 & D1 & I1 & Q1). clear A.
    pose proof (@bdf_facts L2 P2 X2 N2 E2 S2 F2 A2 g2 _ _ _ _ _ _ _ _ _ H2 Ht Ho R2) as A. cbv zeta in A. destruct (A O2) as (_ & _ & K2 & Y2 & T2 & _ & B2 & C2 & D2 & I2 & Q2). clear A.
    assert (Ht3 : sc * t0 + sh < sc * t1 + sh) by (pose proof (Rmult_lt_compat_l _ _ _ Hsc Ht); lra).
    pose proof (@bdf_facts L3 P3 X3 N3 E3 S3 F3 A3 g3 _ _ _ _ _ _ _ _ _ H3 Ht3 Ho R3) as A. cbv zeta in A. rewrite E in A. rewrite Rmult_assoc in A. destruct (A O3) as (Hh3 & _ & K3 & Y3 & T3 & _ & B3 & C3 & D3 & I3 & Q3). clear A E.
    set (h := Rmin dt (t1 - t0)) in * . set (kk := Z.to_nat order) in * .
    assert (M2' : length (bo_t_vals r2) = length (bo_t_vals r1)) by (apply (ab_count t0 t1 h (S kk)); try assumption; lia).
    assert (M3' : length (bo_t_vals r3) = length (bo_t_vals r1)).
    { apply (ab_count t0 t1 h (S kk)); try assumption; try lia; [|destruct C3 as [C3|C3]; [left; exact C3|right]]; apply (Rmult_le_reg_l sc) || apply (Rmult_lt_reg_l sc); lra. }
    rewrite M2' in * . rewrite M3' in * . set (N := length (bo_t_vals r1)) in * .
    split; [|split].
    - apply (nth_ext _ _ 0 0); [exact M2'|]. intros i Hi. rewrite M2' in Hi. rewrite T1, T2 by exact Hi. reflexivity.
    - apply (nth_ext _ _ 0 (sc * 0 + sh)); [rewrite map_length; exact M3'|]. intros i Hi. rewrite M3' in Hi. rewrite (map_nth (fun t => sc * t + sh)), T1, T3 by exact Hi. ring.
    - change (forall k, (k < N)%nat -> yval (bo_y_vals r3) k = comb (length y1) (length y2) (length z) M1 M2 v (yval (bo_y_vals r1) k) (yval (bo_y_vals r2) k)).
      induction k as [k IH] using lt_wf_ind. intros HkN.
      destruct (Nat.le_gt_cases k kk) as [L|L]; [rewrite I1, I2, I3 by exact L; exact Hz|].
      apply (bdf_unique (length z) (sc * (h * bdf_beta kk)) A3 g3 (sc * t0 + sh + INR k * (sc * h)) (fun q => Rsum kk (fun j => bdf_weight kk j * ventry (yval (bo_y_vals r3) (k - 1 - j)) q))); [exact O3|apply D3, HkN|apply vtab_length| |].
      { intros q Hq. pose proof (Q3 k q ltac:(lia) Hq) as X. unfold bdf_residual in X. rewrite (Rmult_assoc sc) in X. exact X. }
      intros q Hq. replace (sc * t0 + sh + INR k * (sc * h)) with (sc * (t0 + INR k * h) + sh) by ring. rewrite Hg by (first [apply D1|apply D2]; lia).
      rewrite ventry_vt by exact Hq. unfold comb at 1. rewrite ventry_vt by exact Hq.
      rewrite (Rsum_ext kk _ (fun j => bdf_weight kk j * v q + (Rsum (length y1) (fun p => M1 q p * (bdf_weight kk j * ventry (yval (bo_y_vals r1) (k - 1 - j)) p)) + Rsum (length y2) (fun p => M2 q p * (bdf_weight kk j * ventry (yval (bo_y_vals r2) (k - 1 - j)) p))))).
      2:{ intros j Hj. rewrite (IH (k - 1 - j)%nat) by lia. unfold comb. rewrite ventry_vt by exact Hq.
          rewrite (Rsum_ext (length y1) (fun p => M1 q p * (bdf_weight kk j * ventry (yval (bo_y_vals r1) (k - 1 - j)) p)) (fun p => bdf_weight kk j * (M1 q p * ventry (yval (bo_y_vals r1) (k - 1 - j)) p))) by (intros; ring).
          rewrite (Rsum_ext (length y2) (fun p => M2 q p * (bdf_weight kk j * ventry (yval (bo_y_vals r2) (k - 1 - j)) p)) (fun p => bdf_weight kk j * (M2 q p * ventry (yval (bo_y_vals r2) (k - 1 - j)) p))) by (intros; ring).
          rewrite !Rsum_scal. ring. }
      rewrite !Rsum_plus, Rsum_scal_r, (bdf_weights_sum kk Hk), (Rsum_swap kk (length y1)), (Rsum_swap kk (length y2)).
      rewrite (Rsum_ext (length y1) (fun j => Rsum kk _) (fun p => M1 q p * Rsum kk (fun j => bdf_weight kk j * ventry (yval (bo_y_vals r1) (k - 1 - j)) p))) by (intros; apply Rsum_scal).
      rewrite (Rsum_ext (length y2) (fun j => Rsum kk _) (fun p => M2 q p * Rsum kk (fun j => bdf_weight kk j * ventry (yval (bo_y_vals r2) (k - 1 - j)) p))) by (intros; apply Rsum_scal).
      assert (Z1 : Rsum (length y1) (fun p => M1 q p * ventry (yval (bo_y_vals r1) k) p) + Rsum (length y1) (fun p => M1 q p * Rsum kk (fun j => bdf_weight kk j * ventry (yval (bo_y_vals r1) (k - 1 - j)) p)) =
        h * bdf_beta kk * Rsum (length y1) (fun p => M1 q p * ventry (affine_rhs (length y1) A1 g1 (t0 + INR k * h) (yval (bo_y_vals r1) k)) p)).
      { rewrite <- Rsum_scal, <- Rsum_plus. apply Rsum_ext. intros p Hp. pose proof (Q1 k p ltac:(lia) Hp) as X. unfold bdf_residual in X.
        rewrite <- Rmult_plus_distr_l. replace (h * bdf_beta kk * (M1 q p * ventry (affine_rhs (length y1) A1 g1 (t0 + INR k * h) (yval (bo_y_vals r1) k)) p)) with (M1 q p * (h * bdf_beta kk * ventry (affine_rhs (length y1) A1 g1 (t0 + INR k * h) (yval (bo_y_vals r1) k)) p)) by ring. f_equal. lra. }
      assert (Z2 : Rsum (length y2) (fun p => M2 q p * ventry (yval (bo_y_vals r2) k) p) + Rsum (length y2) (fun p => M2 q p * Rsum kk (fun j => bdf_weight kk j * ventry (yval (bo_y_vals r2) (k - 1 - j)) p)) =
        h * bdf_beta kk * Rsum (length y2) (fun p => M2 q p * ventry (affine_rhs (length y2) A2 g2 (t0 + INR k * h) (yval (bo_y_vals r2) k)) p)).
      { rewrite <- Rsum_scal, <- Rsum_plus. apply Rsum_ext. intros p Hp. pose proof (Q2 k p ltac:(lia) Hp) as X. unfold bdf_residual in X.
        rewrite <- Rmult_plus_distr_l. replace (h * bdf_beta kk * (M2 q p * ventry (affine_rhs (length y2) A2 g2 (t0 + INR k * h) (yval (bo_y_vals r2) k)) p)) with (M2 q p * (h * bdf_beta kk * ventry (affine_rhs (length y2) A2 g2 (t0 + INR k * h) (yval (bo_y_vals r2) k)) p)) by ring. f_equal. lra. }
      set (a := Rsum (length y1) (fun p => M1 q p * ventry (affine_rhs _ _ _ _ _) p)) in * . set (b := Rsum (length y2) (fun p => M2 q p * ventry (affine_rhs _ _ _ _ _) p)) in * .
      replace (sc * (h * bdf_beta kk) * ((a + b) / sc)) with (h * bdf_beta kk * a + h * bdf_beta kk * b) by (field; lra). lra.
  Qed.
End Runs.

Section Affine.
  Context {E1 E3 : Env R} {L1 L3 : LinAlg R} {P1 : ExactProducts L1} {P3 : ExactProducts L3} {X1 : ExactSolve L1} {X3 : ExactSolve L3} {N1 : ExactNorm L1} {N3 : ExactNorm L3} {S1 S3 : Type}.
  Variables (F1 : functor R S1) (F3 : functor R S3).
  Lemma bdf_affine_change A g B k M v a s order t0 t1 dt fu1 y w1 w1' r1 fu3 z w3 w3' r3 :
    affine_problem F1 (length y) A g -> affine_problem F3 (length z) B k -> 0 < a -> (1 <= order <= 6)%Z -> t0 < t1 ->
    (let c := Rmin dt (t1 - t0) * bdf_beta (Z.to_nat order) in bdf_solvable (length y) c A /\ bdf_solvable (length z) (a * c) B) ->
    conjugate (length y) (length z) M v a s (affine_rhs (length y) A g) (affine_rhs (length z) B k) -> z = affine_map (length y) (length z) M v y ->
    @bdf R RScalar L1 E1 S1 fu1 F1 t0 t1 y order dt w1 = (w1', Ok r1) ->
    @bdf R RScalar L3 E3 S3 fu3 F3 (a * t0 + s) (a * t1 + s) z order (a * dt) w3 = (w3', Ok r3) ->
    bo_t_vals r3 = map (fun t => a * t + s) (bo_t_vals r1) /\ bo_y_vals r3 = map (affine_map (length y) (length z) M v) (bo_y_vals r1).
  Proof.
    intros H1 H3 Ha Ho Ht [O1 O3] Hc Hz R1 R3.
    destruct (@bdf_combine E1 E1 E3 L1 L1 L3 P1 P1 P3 X1 X1 X3 N1 N1 N3 S1 S1 S3 F1 F1 F3 A A B g g k M (fun _ _ => 0) v a s order Ha Ho t0 t1 dt fu1 y w1 w1' r1 fu1 y w1 w1' r1 fu3 z w3 w3' r3 Ht H1 H1 H3 (conj O1 (conj O1 O3))) as (_ & HT & HY);
      [|exact R1|exact R1|exact R3|rewrite comb_affine; exact Hz|].
    { intros t u1 u2 L L'. rewrite comb_affine, (Hc t u1 L). unfold linear_map. rewrite vtab_map. apply vtab_ext. intros q _.
      rewrite (Rsum_0 (length y) (fun p => 0 * ventry (affine_rhs (length y) A g t u2) p)) by (intros; ring). field. lra. }
    split; [exact HT|].
    pose proof (bdf_times _ _ _ _ _ _ _ _ _ _ R1 Ho) as (Ly1 & _). pose proof (bdf_times _ _ _ _ _ _ _ _ _ _ R3 Ho) as (Ly3 & _). cbv zeta in Ly1, Ly3.
    assert (Lt : length (bo_t_vals r3) = length (bo_t_vals r1)) by (rewrite HT; apply map_length).
    apply (nth_ext _ _ [] (affine_map (length y) (length z) M v [])); [rewrite map_length; congruence|]. intros i Hi. rewrite map_nth.
    rewrite HY by congruence. apply comb_affine.
  Qed.
End Affine.

Section Super.
  Context {E1 E2 E3 : Env R} {L1 L2 L3 : LinAlg R} {P1 : ExactProducts L1} {P2 : ExactProducts L2} {P3 : ExactProducts L3} {X1 : ExactSolve L1} {X2 : ExactSolve L2} {X3 : ExactSolve L3}
    {N1 : ExactNorm L1} {N2 : ExactNorm L2} {N3 : ExactNorm L3} {S1 S2 S3 : Type}.
  Variables (F1 : functor R S1) (F2 : functor R S2) (F3 : functor R S3).
  Lemma bdf_super n A g1 g2 al be order t0 t1 dt fu1 x w1 w1' r1 fu2 y w2 w2' r2 fu3 w3 w3' r3 :
    affine_problem F1 n A g1 -> affine_problem F2 n A g2 -> affine_problem F3 n A (fun t p => al * g1 t p + be * g2 t p) ->
    (1 <= order <= 6)%Z -> t0 < t1 -> bdf_solvable n (Rmin dt (t1 - t0) * bdf_beta (Z.to_nat order)) A -> length x = n -> length y = n ->
    @bdf R RScalar L1 E1 S1 fu1 F1 t0 t1 x order dt w1 = (w1', Ok r1) ->
    @bdf R RScalar L2 E2 S2 fu2 F2 t0 t1 y order dt w2 = (w2', Ok r2) ->
    @bdf R RScalar L3 E3 S3 fu3 F3 t0 t1 (combination n al be x y) order dt w3 = (w3', Ok r3) ->
    bo_t_vals r2 = bo_t_vals r1 /\ bo_t_vals r3 = bo_t_vals r1 /\
    forall k, (k < length (bo_t_vals r1))%nat -> nth k (bo_y_vals r3) [] = combination n al be (nth k (bo_y_vals r1) []) (nth k (bo_y_vals r2) []).
  Proof.
    intros H1 H2 H3 Ho Ht Os Lx Ly R1 R2 R3.
    set (Mx := fun q p : nat => if Nat.eq_dec p q then al else 0). set (My := fun q p : nat => if Nat.eq_dec p q then be else 0).
    assert (Q : forall u1 u2, comb n n n Mx My (fun _ => 0) u1 u2 = combination n al be u1 u2) by (intros u1 u2; apply comb_combination).
    assert (Lz : length (combination n al be x y) = n) by apply vtab_length.
    replace t0 with (1 * t0 + 0) in R3 by ring. replace t1 with (1 * t1 + 0) in R3 by ring. replace dt with (1 * dt) in R3 by ring.
    destruct (@bdf_combine E1 E2 E3 L1 L2 L3 P1 P2 P3 X1 X2 X3 N1 N2 N3 S1 S2 S3 F1 F2 F3 A A A g1 g2 (fun t p => al * g1 t p + be * g2 t p) Mx My (fun _ => 0) 1 0 order Rlt_0_1 Ho t0 t1 dt fu1 x w1 w1' r1 fu2 y w2 w2' r2 fu3 (combination n al be x y) w3 w3' r3 Ht) as (T2 & HT & HY);
      [rewrite Lx; exact H1|rewrite Ly; exact H2|rewrite Lz; exact H3|cbv zeta; rewrite Lx, Ly, Lz, Rmult_1_l; repeat split; exact Os| |exact R1|exact R2|exact R3|rewrite Lx, Ly, Lz, Q; reflexivity|].
    { rewrite Lx, Ly, Lz. intros t u1 u2 La Lb. rewrite Q. replace (1 * t + 0) with t by ring.
      transitivity (combination n al be (affine_rhs n A g1 t u1) (affine_rhs n A g2 t u2)).
      - unfold affine_rhs at 1, combination. apply vtab_ext. intros p Hp. unfold affine_rhs. rewrite !ventry_vt by exact Hp.
        rewrite (Rsum_ext n _ (fun q => al * (A t p q * ventry u1 q) + be * (A t p q * ventry u2 q))) by (intros q Hq; rewrite ventry_vt by exact Hq; ring).
        rewrite Rsum_plus, !Rsum_scal. ring.
      - rewrite <- Q. unfold comb. apply vtab_ext. intros q _. field. }
    split; [exact T2|]. split.
    - rewrite HT. rewrite <- (map_id (bo_t_vals r1)) at 2. apply map_ext. intros t. ring.
    - intros k Hk. rewrite (HY k Hk), Lx, Ly, Lz. apply Q.
  Qed.
End Super.

(** ** damped problems *)
Lemma damped_solvable n mu A c : 0 <= mu -> 0 <= c -> (forall t, damped_by mu n (A t)) -> bdf_solvable n c A.
Proof.
  intros Hmu Hc HA t. apply (dissipative_one_minus n (A t) _ c); [|exact Hc|intros p q Hp Hq; apply mentry_vt; assumption].
  intros x. pose proof (HA t x) as H. assert (0 <= Rsum n (fun p => x p * x p)) by (apply Rsum_nonneg; intros; apply Rle_0_sqr). nra.
Qed.
(** <A(t) y, y>, from the right-hand side *)
Lemma rhs_damped n mu A t y : (forall t, damped_by mu n (A t)) -> Rsum n (fun p => ventry y p * ventry (affine_rhs n A (fun _ _ => 0) t y) p) <= - mu * norm2 n y.
Proof.
  intros HA. rewrite (Rsum_ext n _ (fun p => ventry y p * Rsum n (fun q => A t p q * ventry y q))); [apply (HA t (ventry y))|].
  intros p Hp. unfold affine_rhs. rewrite ventry_vt by exact Hp. ring.
Qed.
Section Damped.
  Context {LA : LinAlg R} {HP : ExactProducts LA} {HX : ExactSolve LA} {HN : ExactNorm LA} {HE : Env R} {St : Type}.
  Lemma bdf_damped (F : functor R St) A mu order t0 t1 dt fuel y0 w w' sol :
    affine_problem F (length y0) A (fun _ _ => 0) -> 0 <= mu -> (forall t, damped_by mu (length y0) (A t)) -> (order = 1 \/ order = 2)%Z -> t0 < t1 -> 0 < dt ->
    bdf fuel F t0 t1 y0 order dt w = (w', Ok sol) ->
    let k := Z.to_nat order in let n := length y0 in let size i := norm2 n (nth i (bo_y_vals sol) []) in
    bo_status sol = SUCCESS /\
    forall i, (k <= i < length (bo_y_vals sol))%nat -> size i + 2 * INR k * mu * Rmin dt (t1 - t0) * Rsum (i - k) (fun j => size (S k + j)%nat) <= INR k * norm2 n y0.
  Proof.
    intros HF Hmu HA Ho Ht Hdt E k n size. assert (Hok : (1 <= order <= 6)%Z) by lia.
    assert (Hh0 : 0 < Rmin dt (t1 - t0)) by (apply Rmin_glb_lt; lra).
    assert (Hb : 0 <= bdf_beta (Z.to_nat order)) by (destruct Ho as [-> | ->]; cbv [bdf_beta nth Z.to_nat Pos.to_nat Pos.iter_op Nat.add Nat.sub]; lra).
    pose proof (bdf_facts LA HP HX HN HE St F A (fun _ _ => 0) _ _ _ _ _ _ _ _ _ HF Ht Hok E) as X. cbv zeta in X.
    destruct (X (damped_solvable _ mu A _ Hmu (Rmult_le_pos _ _ (Rlt_le _ _ Hh0) Hb) HA)) as (Hh & Hk & HkN & Ly & _ & Hst & _ & _ & _ & I & Q). clear X.
    split; [exact Hst|]. set (h := Rmin dt (t1 - t0)) in * . rewrite Ly. set (N := length (bo_t_vals sol)) in * .
    assert (SI : forall i, (i <= k)%nat -> size i = norm2 n y0) by (intros i Hi; unfold size; fold (yval (bo_y_vals sol) i); rewrite I by exact Hi; reflexivity).
    assert (Hsum : forall i u1 u2, (i < N)%nat -> (k < i)%nat -> 
      (forall p, (p < n)%nat -> ventry (yval (bo_y_vals sol) i) p + Rsum k (fun j => bdf_weight k j * ventry (yval (bo_y_vals sol) (i - 1 - j)) p) = ventry (yval (bo_y_vals sol) i) p - u1 p + u2 p) ->
      Rsum n (fun p => ventry (yval (bo_y_vals sol) i) p * (ventry (yval (bo_y_vals sol) i) p - u1 p + u2 p)) <= - (h * bdf_beta k * mu) * size i).
    { intros i u1 u2 Hi Hki Hu. pose proof (rhs_damped n mu A (t0 + INR i * h) (yval (bo_y_vals sol) i) HA) as D.
      rewrite (Rsum_ext n _ (fun p => h * bdf_beta k * (ventry (yval (bo_y_vals sol) i) p * ventry (affine_rhs n A (fun _ _ => 0) (t0 + INR i * h) (yval (bo_y_vals sol) i)) p))).
      - rewrite Rsum_scal. pose proof (Rmult_le_compat_l (h * bdf_beta k) _ _ (Rmult_le_pos _ _ (Rlt_le _ _ Hh) Hb) D) as D'. unfold size. fold (yval (bo_y_vals sol) i). lra.
      - intros p Hp. rewrite <- (Hu p Hp). pose proof (Q i p ltac:(lia) Hp) as Z. unfold bdf_residual in Z. fold k n in Z. replace (ventry (yval (bo_y_vals sol) i) p + Rsum k (fun j => bdf_weight k j * ventry (yval (bo_y_vals sol) (i - 1 - j)) p)) with (h * bdf_beta k * ventry (affine_rhs n A (fun _ _ => 0) (t0 + INR i * h) (yval (bo_y_vals sol) i)) p) by lra. ring. }
    destruct Ho as [Eo|Eo]; unfold k in * ; clear k; subst order.
    - change (Z.to_nat 1) with 1%nat in * . intros i [Hi1 Hi]. change (INR 1) with 1. rewrite Rmult_1_l, Rmult_1_r.
      induction i as [|i IH]; [lia|]. destruct (Nat.eq_dec i 0) as [->|Hi0]; [cbn [Nat.sub Rsum]; rewrite (SI 1%nat) by lia; lra|].
      specialize (IH ltac:(lia) ltac:(lia)). replace (S i - 1)%nat with (S (i - 1)) by lia. cbn [Rsum]. replace (2 + (i - 1))%nat with (S i) by lia.
      pose proof (Hsum (S i) (ventry (yval (bo_y_vals sol) i)) (fun _ => 0) Hi ltac:(lia)) as D. change (bdf_beta 1) with 1 in D.
      assert (D' : Rsum n (fun p => ventry (yval (bo_y_vals sol) (S i)) p * (ventry (yval (bo_y_vals sol) (S i)) p - ventry (yval (bo_y_vals sol) i) p + 0)) <= - (h * 1 * mu) * size (S i)).
      { apply D. intros p Hp. cbn [Rsum]. replace (S i - 1 - 0)%nat with i by lia. change (bdf_weight 1 0) with (-1). ring. }
      assert (C : size (S i) - size i <= 2 * Rsum n (fun p => ventry (yval (bo_y_vals sol) (S i)) p * (ventry (yval (bo_y_vals sol) (S i)) p - ventry (yval (bo_y_vals sol) i) p + 0))).
      { unfold size, norm2. fold (yval (bo_y_vals sol) i) (yval (bo_y_vals sol) (S i)). rewrite <- Rsum_scal, <- Rsum_minus. apply Rsum_le. intros p Hp. pose proof (Rle_0_sqr (ventry (yval (bo_y_vals sol) (S i)) p - ventry (yval (bo_y_vals sol) i) p)) as S. unfold Rsqr in S. lra. }
      lra.
    - change (Z.to_nat 2) with 2%nat in * . change (INR 2) with 2.
      set (W := fun i => Rsum n (fun p => (2 * ventry (yval (bo_y_vals sol) i) p - ventry (yval (bo_y_vals sol) (i - 1)) p) * (2 * ventry (yval (bo_y_vals sol) i) p - ventry (yval (bo_y_vals sol) (i - 1)) p))).
      assert (HW : forall i, (2 <= i < N)%nat -> size i + W i + 2 * 2 * mu * h * Rsum (i - 2) (fun j => size (3 + j)%nat) <= 2 * norm2 n y0).
      { intros i [Hi1 Hi]. induction i as [|i IH]; [lia|]. destruct (Nat.eq_dec i 1) as [->|Hi0].
        - cbn [Nat.sub Rsum]. rewrite (SI 2%nat) by lia. unfold W. cbn [Nat.sub]. rewrite !I by lia. replace (Rsum n _) with (norm2 n y0) by (apply Rsum_ext; intros; ring). lra.
        - specialize (IH ltac:(lia) ltac:(lia)). replace (S i - 2)%nat with (S (i - 2)) by lia. cbn [Rsum]. replace (3 + (i - 2))%nat with (S i) by lia.
          pose proof (Hsum (S i) (fun p => 4 / 3 * ventry (yval (bo_y_vals sol) i) p) (fun p => 1 / 3 * ventry (yval (bo_y_vals sol) (i - 1)) p) Hi ltac:(lia)) as D. change (bdf_beta 2) with (2 / 3) in D.
          assert (D' : Rsum n (fun p => ventry (yval (bo_y_vals sol) (S i)) p * (ventry (yval (bo_y_vals sol) (S i)) p - 4 / 3 * ventry (yval (bo_y_vals sol) i) p + 1 / 3 * ventry (yval (bo_y_vals sol) (i - 1)) p)) <= - (h * (2 / 3) * mu) * size (S i)).
          { apply D. intros p Hp. cbn [Rsum]. replace (S i - 1 - 0)%nat with i by lia. replace (S i - 1 - 1)%nat with (i - 1)%nat by lia. change (bdf_weight 2 0) with (-4/3). change (bdf_weight 2 1) with (1/3). field. }
          assert (C : size (S i) + W (S i) - (size i + W i) <= 6 * Rsum n (fun p => ventry (yval (bo_y_vals sol) (S i)) p * (ventry (yval (bo_y_vals sol) (S i)) p - 4 / 3 * ventry (yval (bo_y_vals sol) i) p + 1 / 3 * ventry (yval (bo_y_vals sol) (i - 1)) p))).
          { unfold size, norm2, W. fold (yval (bo_y_vals sol) i) (yval (bo_y_vals sol) (S i)). replace (S i - 1)%nat with i by lia. rewrite <- !Rsum_plus, <- Rsum_scal, <- Rsum_minus. apply Rsum_le. intros p Hp.
            pose proof (Rle_0_sqr (ventry (yval (bo_y_vals sol) (S i)) p - 2 * ventry (yval (bo_y_vals sol) i) p + ventry (yval (bo_y_vals sol) (i - 1)) p)) as S. unfold Rsqr in S. lra. }
          lra. }
      intros i Hi. specialize (HW i Hi). assert (0 <= W i) by (apply Rsum_nonneg; intros; apply Rle_0_sqr). lra.
  Qed.
End Damped.
