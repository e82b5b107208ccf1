(** Adams-Bashforth runs: changes of variables and units, superposition, dependence on the data (C128, C129). *)
From Coq Require Import Reals Lra ClassicalEpsilon.
From Verif Require Import Model.Base Model.Scalar Model.LinAlg Model.Enums Model.Options Model.Irk Model.Multistep.
From Verif Require Import Spec.Sums Spec.Observe Spec.MultistepSpec Spec.ConvergenceSpec Spec.Covariance.
From Verif Require Import Proofs.SumsProofs Proofs.MultistepProofs Proofs.MultistepResults Proofs.MultistepOrders Proofs.Convergence Proofs.ConvergenceAb Proofs.Covariance.
Local Open Scope R_scope.

(** ** what is known of a run *)
Lemma ab_facts (LA : LinAlg R) (HE : Env R) (St : Type) (F : functor R St) f fuel t0 t1 y0 order dt w w' sol :
  computes F f -> t0 < t1 -> (order <= 5)%Z -> adams_bashforth fuel F t0 t1 y0 order dt w = (w', Ok sol) ->
  let h := Rmin dt (t1 - t0) in let k := Z.to_nat order in let N := length (bo_t_vals sol) in let ys := bo_y_vals sol in
  0 < h /\ (1 <= k <= 5)%nat /\ (k <= N)%nat /\ length ys = N /\ (forall i, (i < N)%nat -> nth i (bo_t_vals sol) 0 = t0 + INR i * h) /\
  t1 <= t0 + INR (N - 1) * h /\ (N = k \/ t0 + INR (N - 1) * h < t1 + h) /\
  (forall i, (i < N)%nat -> length (yval ys i) = length y0) /\ (forall i, (i < k)%nat -> yval ys i = y0) /\
  forall i, (k <= i < N)%nat -> ab_step_at_one_time (length y0) k f (t0 + INR (i - 1) * h) h ys i.
Proof.
  intros HF Ht Ho E h k N ys.
  pose proof (ab_times _ _ _ _ _ _ _ _ _ _ E) as (HN & Htv & HkN & Hend & Hlt).
  pose proof (ab_formula _ _ HF _ _ _ _ _ _ _ _ _ E Ho) as (Hlen & Hform).
  pose proof (ab_starting _ _ _ _ _ _ _ _ _ _ E) as (Ho1 & _ & Hst & _).
  cbv zeta in * . fold h k N ys in HN, Htv, HkN, Hend, Hlt, Hlen, Hform, Hst.
  assert (Hk : (1 <= k <= 5)%nat) by (unfold k; lia).
  pose proof (Htv (N - 1)%nat ltac:(lia)) as HtvN. rewrite HtvN in Hend. rewrite HtvN in Hlt. clear HtvN.
  assert (Hh : 0 < h). { pose proof (pos_INR (N - 1)). destruct (Rle_dec h 0); [nra|lra]. }
  rewrite HN in Hlen, Hform.
  repeat (split; [assumption|]). split; [|].
  - intros j Hj. unfold yval. rewrite <- (firstn_skipn k ys). rewrite Hst, app_nth1 by (rewrite repeat_length; exact Hj). apply nth_repeat_lt. exact Hj.
  - intros i Hi. rewrite <- (Htv (i - 1)%nat ltac:(lia)). apply Hform, Hi.
Qed.

(** the number of recorded values *)
Lemma ab_count (t0 t1 h : R) k N N' : 0 < h -> (k <= N)%nat -> (k <= N')%nat -> (1 <= k)%nat -> t1 <= t0 + INR (N - 1) * h -> t1 <= t0 + INR (N' - 1) * h ->
  (N = k \/ t0 + INR (N - 1) * h < t1 + h) -> (N' = k \/ t0 + INR (N' - 1) * h < t1 + h) -> N = N'.
Proof.
  assert (G : forall N N', 0 < h -> (k <= N)%nat -> (k <= N')%nat -> (1 <= k)%nat -> t1 <= t0 + INR (N - 1) * h -> 
    (N' = k \/ t0 + INR (N' - 1) * h < t1 + h) -> ~ (N < N')%nat).
  { clear. intros N N' Hh H1 H2 Hk He [->|Hl] L; [lia|]. assert (X : INR (N - 1) + 1 <= INR (N' - 1)) by (rewrite <- S_INR; apply le_INR; lia). nra. }
  intros. pose proof (G N N' ltac:(assumption) ltac:(assumption) ltac:(assumption) ltac:(assumption) ltac:(assumption) ltac:(assumption)).
  pose proof (G N' N ltac:(assumption) ltac:(assumption) ltac:(assumption) ltac:(assumption) ltac:(assumption) ltac:(assumption)). lia.
Qed.

(** ** v + M1 y1 + M2 y2 of two runs *)
Section Runs.
  Context {E1 E2 E3 : Env R} {L1 L2 L3 : LinAlg R} {S1 S2 S3 : Type}.
  Variables (F1 : functor R S1) (F2 : functor R S2) (F3 : functor R S3) (f1 f2 g : R -> list R -> list R).
  Hypotheses (H1 : computes F1 f1) (H2 : computes F2 f2) (H3 : computes F3 g).
  Variables (M1 M2 : nat -> nat -> R) (v : nat -> R) (sc sh : R) (order : Z).
  Hypothesis Hsc : 0 < sc.
  Hypothesis Ho : (order <= 5)%Z.
  Lemma ab_combine t0 t1 dt fu1 y1 w1 w1' r1 fu2 y2 w2 w2' r2 fu3 z w3 w3' r3 : t0 < t1 ->
    (forall t u1 u2, length u1 = length y1 -> length u2 = length y2 ->
      g (sc * t + sh) (comb (length y1) (length y2) (length z) M1 M2 v u1 u2) =
      vtab (length z) (fun q => (Rsum (length y1) (fun p => M1 q p * ventry (f1 t u1) p) + Rsum (length y2) (fun p => M2 q p * ventry (f2 t u2) p)) / sc)) ->
    @adams_bashforth R RScalar L1 E1 S1 fu1 F1 t0 t1 y1 order dt w1 = (w1', Ok r1) ->
    @adams_bashforth R RScalar L2 E2 S2 fu2 F2 t0 t1 y2 order dt w2 = (w2', Ok r2) ->
    @adams_bashforth R RScalar L3 E3 S3 fu3 F3 (sc * t0 + sh) (sc * t1 + sh) z order (sc * dt) w3 = (w3', Ok r3) ->
    z = comb (length y1) (length y2) (length z) M1 M2 v y1 y2 ->
    bo_t_vals r2 = bo_t_vals r1 /\ bo_t_vals r3 = map (fun t => sc * t + sh) (bo_t_vals r1) /\
    forall k, (k < length (bo_t_vals r1))%nat -> nth k (bo_y_vals r3) [] = comb (length y1) (length y2) (length z) M1 M2 v (nth k (bo_y_vals r1) []) (nth k (bo_y_vals r2) []).
  Proof.
    intros Ht Hg R1 R2 R3 Hz.
    pose proof (@ab_facts L1 E1 S1 F1 f1 _ _ _ _ _ _ _ _ _ H1 Ht Ho R1) as A. cbv zeta in A. destruct A as (Hh & Hk & K1 & Y1 & T1 & B1 & C1 & D1 & I1 & P1).
    pose proof (@ab_facts L2 E2 S2 F2 f2 _ _ _ _ _ _ _ _ _ H2 Ht Ho R2) as A. cbv zeta in A. destruct A as (_ & _ & K2 & Y2 & T2 & B2 & C2 & D2 & I2 & P2).
    assert (Ht3 : sc * t0 + sh < sc * t1 + sh) by (pose proof (Rmult_lt_compat_l _ _ _ Hsc Ht); lra).
    pose proof (@ab_facts L3 E3 S3 F3 g _ _ _ _ _ _ _ _ _ H3 Ht3 Ho R3) as A. cbv zeta in A. destruct A as (Hh3 & _ & K3 & Y3 & T3 & B3 & C3 & D3 & I3 & P3).
    assert (E : Rmin (sc * dt) (sc * t1 + sh - (sc * t0 + sh)) = sc * Rmin dt (t1 - t0)).
    { replace (sc * t1 + sh - (sc * t0 + sh)) with (sc * (t1 - t0)) by ring. unfold Rmin. destruct (Rle_dec dt (t1 - t0)) as [L|L].
      - destruct (Rle_dec (sc * dt) (sc * (t1 - t0))) as [Q|Q]; [reflexivity|]. destruct Q. apply Rmult_le_compat_l; lra.
      - destruct (Rle_dec (sc * dt) (sc * (t1 - t0))) as [Q|Q]; [|reflexivity]. apply Rmult_le_reg_l in Q; [lra|exact Hsc]. }
    rewrite E in * . clear E. set (h := Rmin dt (t1 - t0)) in * . set (kk := Z.to_nat order) in * .
    assert (N2 : length (bo_t_vals r2) = length (bo_t_vals r1)) by (apply (ab_count t0 t1 h kk); try assumption; lia).
    assert (N3 : length (bo_t_vals r3) = length (bo_t_vals r1)).
    { apply (ab_count t0 t1 h kk); try assumption; try lia; [|destruct C3 as [C3|C3]; [left; exact C3|right]]; apply (Rmult_le_reg_l sc) || apply (Rmult_lt_reg_l sc); lra. }
    rewrite N2 in * . rewrite N3 in * . set (N := length (bo_t_vals r1)) in * .
    split; [|split].
    - apply (nth_ext _ _ 0 0); [exact N2|]. intros i Hi. rewrite N2 in Hi. rewrite T1, T2 by exact Hi. reflexivity.
    - apply (nth_ext _ _ 0 (sc * 0 + sh)); [rewrite map_length; exact N3|]. intros i Hi. rewrite N3 in Hi. rewrite (map_nth (fun t => sc * t + sh)), T1, T3 by exact Hi. ring.
    - change (forall k, (k < N)%nat -> yval (bo_y_vals r3) k = comb (length y1) (length y2) (length z) M1 M2 v (yval (bo_y_vals r1) k) (yval (bo_y_vals r2) k)).
      induction k as [k IH] using lt_wf_ind. intros HkN.
      destruct (Nat.lt_ge_cases k kk) as [L|L]; [rewrite I1, I2, I3 by exact L; exact Hz|].
      destruct (P1 k ltac:(lia)) as (_ & Q1). destruct (P2 k ltac:(lia)) as (_ & Q2). destruct (P3 k ltac:(lia)) as (_ & Q3).
      apply (nth_ext _ _ 0 0); [rewrite D3 by exact HkN; symmetry; apply vtab_length|]. intros q Hq. rewrite D3 in Hq by exact HkN.
      change (ventry (yval (bo_y_vals r3) k) q = ventry (comb (length y1) (length y2) (length z) M1 M2 v (yval (bo_y_vals r1) k) (yval (bo_y_vals r2) k)) q).
      rewrite (Q3 q Hq), (IH (k - 1)%nat) by lia. unfold comb at 1, ventry at 1. rewrite vtab_nth by exact Hq. unfold comb at 1, ventry at 4. rewrite vtab_nth by exact Hq.
      rewrite (Rsum_ext (length y1) (fun p => M1 q p * ventry (yval (bo_y_vals r1) k) p)
        (fun p => M1 q p * ventry (yval (bo_y_vals r1) (k - 1)) p + Rsum kk (fun j => h * (ab_weight kk j * (M1 q p * ventry (f1 (t0 + INR (k - 1) * h) (yval (bo_y_vals r1) (k - 1 - j))) p))))).
      2:{ intros p Hp. rewrite (Q1 p Hp), (Rsum_scal kk h), Rmult_plus_distr_l. f_equal. rewrite <- Rmult_assoc, (Rmult_comm (M1 q p) h), Rmult_assoc. f_equal. rewrite <- (Rsum_scal kk (M1 q p)). apply Rsum_ext. intros. ring. }
      rewrite (Rsum_ext (length y2) (fun p => M2 q p * ventry (yval (bo_y_vals r2) k) p)
        (fun p => M2 q p * ventry (yval (bo_y_vals r2) (k - 1)) p + Rsum kk (fun j => h * (ab_weight kk j * (M2 q p * ventry (f2 (t0 + INR (k - 1) * h) (yval (bo_y_vals r2) (k - 1 - j))) p))))).
      2:{ intros p Hp. rewrite (Q2 p Hp), (Rsum_scal kk h), Rmult_plus_distr_l. f_equal. rewrite <- Rmult_assoc, (Rmult_comm (M2 q p) h), Rmult_assoc. f_equal. rewrite <- (Rsum_scal kk (M2 q p)). apply Rsum_ext. intros. ring. }
      rewrite !Rsum_plus, (Rsum_swap (length y1) kk), (Rsum_swap (length y2) kk).
      assert (X : sc * h * Rsum kk (fun j => ab_weight kk j * ventry (g (sc * t0 + sh + INR (k - 1) * (sc * h)) (yval (bo_y_vals r3) (k - 1 - j))) q) =
        Rsum kk (fun j => Rsum (length y1) (fun p => h * (ab_weight kk j * (M1 q p * ventry (f1 (t0 + INR (k - 1) * h) (yval (bo_y_vals r1) (k - 1 - j))) p)))) +
        Rsum kk (fun j => Rsum (length y2) (fun p => h * (ab_weight kk j * (M2 q p * ventry (f2 (t0 + INR (k - 1) * h) (yval (bo_y_vals r2) (k - 1 - j))) p))))).
      { rewrite <- Rsum_plus, <- (Rsum_scal kk (sc * h)). apply Rsum_ext. intros j Hj. rewrite (IH (k - 1 - j)%nat) by lia.
        replace (sc * t0 + sh + INR (k - 1) * (sc * h)) with (sc * (t0 + INR (k - 1) * h) + sh) by ring. rewrite Hg by (first [apply D1|apply D2]; lia).
        unfold ventry at 1. rewrite vtab_nth by exact Hq. rewrite (Rsum_scal (length y1) h), (Rsum_scal (length y2) h), (Rsum_scal (length y1) (ab_weight kk j)), (Rsum_scal (length y2) (ab_weight kk j)). field. lra. }
      rewrite X. ring.
  Qed.
End Runs.

Section Affine.
  Context {E1 E3 : Env R} {L1 L3 : LinAlg R} {S1 S3 : Type}.
  Variables (F1 : functor R S1) (F3 : functor R S3) (f g : R -> list R -> list R).
  Hypotheses (H1 : computes F1 f) (H3 : computes F3 g).
  Variables (M : nat -> nat -> R) (v : nat -> R) (a s : R) (order : Z).
  Lemma ab_affine t0 t1 dt fu1 y w1 w1' r1 fu3 z w3 w3' r3 : 0 < a -> (order <= 5)%Z -> t0 < t1 ->
    conjugate (length y) (length z) M v a s f g -> z = affine_map (length y) (length z) M v y ->
    @adams_bashforth R RScalar L1 E1 S1 fu1 F1 t0 t1 y order dt w1 = (w1', Ok r1) ->
    @adams_bashforth R RScalar L3 E3 S3 fu3 F3 (a * t0 + s) (a * t1 + s) z order (a * dt) w3 = (w3', Ok r3) ->
    bo_t_vals r3 = map (fun t => a * t + s) (bo_t_vals r1) /\ bo_y_vals r3 = map (affine_map (length y) (length z) M v) (bo_y_vals r1).
  Proof.
    intros Ha Ho Ht Hc Hz R1 R3.
    destruct (@ab_combine E1 E1 E3 L1 L1 L3 S1 S1 S3 F1 F1 F3 f f g H1 H1 H3 M (fun _ _ => 0) v a s order Ha Ho t0 t1 dt fu1 y w1 w1' r1 fu1 y w1 w1' r1 fu3 z w3 w3' r3 Ht) as (_ & HT & HY);
      [|exact R1|exact R1|exact R3|rewrite comb_affine; exact Hz|].
    { intros t u1 u2 L L'. rewrite comb_affine, (Hc t u1 L). unfold linear_map. rewrite vtab_map. apply vtab_ext. intros q _.
      rewrite (Rsum_0 (length y) (fun p => 0 * ventry (f t u2) p)) by (intros; ring). field. lra. }
    split; [exact HT|].
    pose proof (ab_times _ _ _ _ _ _ _ _ _ _ R1) as (Ly1 & _). pose proof (ab_times _ _ _ _ _ _ _ _ _ _ R3) as (Ly3 & _). cbv zeta in Ly1, Ly3.
    assert (Lt : length (bo_t_vals r3) = length (bo_t_vals r1)) by (rewrite HT; apply map_length).
    apply (nth_ext _ _ [] (affine_map (length y) (length z) M v [])); [rewrite map_length; congruence|]. intros k Hk. rewrite map_nth.
    rewrite HY by congruence. apply comb_affine.
  Qed.
End Affine.

Section Super.
  Context {E1 E2 E3 : Env R} {L1 L2 L3 : LinAlg R} {S1 S2 S3 : Type}.
  Variables (F1 : functor R S1) (F2 : functor R S2) (F3 : functor R S3) (f g h : R -> list R -> list R).
  Hypotheses (H1 : computes F1 f) (H2 : computes F2 g) (H3 : computes F3 h).
  Lemma ab_super n al be order t0 t1 dt fu1 x w1 w1' r1 fu2 y w2 w2' r2 fu3 w3 w3' r3 : (order <= 5)%Z -> t0 < t1 ->
    superposes n al be f g h -> length x = n -> length y = n ->
    @adams_bashforth R RScalar L1 E1 S1 fu1 F1 t0 t1 x order dt w1 = (w1', Ok r1) ->
    @adams_bashforth R RScalar L2 E2 S2 fu2 F2 t0 t1 y order dt w2 = (w2', Ok r2) ->
    @adams_bashforth R RScalar L3 E3 S3 fu3 F3 t0 t1 (combination n al be x y) order dt w3 = (w3', Ok r3) ->
    bo_t_vals r2 = bo_t_vals r1 /\ bo_t_vals r3 = bo_t_vals r1 /\
    forall k, (k < length (bo_t_vals r1))%nat -> nth k (bo_y_vals r3) [] = combination n al be (nth k (bo_y_vals r1) []) (nth k (bo_y_vals r2) []).
  Proof.
    intros Ho Ht Hc Lx Ly R1 R2 R3.
    set (Mx := fun q p : nat => if Nat.eq_dec p q then al else 0). set (My := fun q p : nat => if Nat.eq_dec p q then be else 0).
    assert (Q : forall u1 u2, comb n n n Mx My (fun _ => 0) u1 u2 = combination n al be u1 u2).
    { intros u1 u2. apply comb_combination. }
    assert (Lz : length (combination n al be x y) = n) by apply vtab_length.
    replace t0 with (1 * t0 + 0) in R3 by ring. replace t1 with (1 * t1 + 0) in R3 by ring. replace dt with (1 * dt) in R3 by ring.
    destruct (@ab_combine E1 E2 E3 L1 L2 L3 S1 S2 S3 F1 F2 F3 f g h H1 H2 H3 Mx My (fun _ => 0) 1 0 order Rlt_0_1 Ho t0 t1 dt fu1 x w1 w1' r1 fu2 y w2 w2' r2 fu3 (combination n al be x y) w3 w3' r3 Ht) as (T2 & HT & HY);
      [|exact R1|exact R2|exact R3|rewrite Lx, Ly, Lz, Q; reflexivity|].
    { rewrite Lx, Ly, Lz. intros t u1 u2 La Lb. rewrite Q. replace (1 * t + 0) with t by ring. rewrite (Hc t u1 u2 La Lb), <- Q. unfold comb. apply vtab_ext. intros q _. field. }
    split; [exact T2|]. split.
    - rewrite HT. rewrite <- (map_id (bo_t_vals r1)) at 2. apply map_ext. intros t. ring.
    - intros k Hk. rewrite (HY k Hk), Lx, Ly, Lz. apply Q.
  Qed.
End Super.

(** ** dependence on the data *)
Theorem ab_dependence k L T : (1 <= k <= 5)%nat -> 0 <= L -> 0 < T -> exists C, 0 <= C /\
  forall n f g t0 t1 e de, t1 - t0 = T -> lipschitz_in n L t0 t1 f ->
  (forall t y q, t0 <= t <= t1 -> length y = n -> (q < n)%nat -> Rabs (ventry (f t y) q - ventry (g t y) q) <= de) ->
  forall (E1 E2 : Env R) (L1 L2 : LinAlg R) (S1 S2 : Type) (F : functor R S1) (G : functor R S2), computes F f -> computes G g ->
  forall dt fu1 y w1 w1' r1 fu2 z w2 w2' r2, length y = n -> length z = n ->
  @adams_bashforth R RScalar L1 E1 S1 fu1 F t0 t1 y (Z.of_nat k) dt w1 = (w1', Ok r1) ->
  @adams_bashforth R RScalar L2 E2 S2 fu2 G t0 t1 z (Z.of_nat k) dt w2 = (w2', Ok r2) ->
  (forall q, (q < n)%nat -> Rabs (ventry y q - ventry z q) <= e) ->
  bo_t_vals r2 = bo_t_vals r1 /\
  forall i q, (i < length (bo_t_vals r1))%nat -> (q < n)%nat ->
  Rabs (ventry (nth i (bo_y_vals r1) []) q - ventry (nth i (bo_y_vals r2) []) q) <= C * (e + de).
Proof.
  intros Hk HL HT.
  set (W := Rsum k (fun j => Rabs (ab_weight k j))). assert (W0 : 0 <= W) by (apply Rsum_nonneg; intros; apply Rabs_pos).
  exists (exp (W * L * (2 * T)) * (1 + 2 * T * W)). pose proof (exp_pos (W * L * (2 * T))) as Hexp. assert (HTW : 0 <= 2 * T * W) by nra. split; [nra|].
  intros n f g t0 t1 e de HTt Hl Hfg E1 E2 L1 L2 S1 S2 F G HF HG dt fu1 y w1 w1' r1 fu2 z w2 w2' r2 Ly Lz R1 R2 Hyz.
  assert (Ht : t0 < t1) by lra. assert (Ho : (Z.of_nat k <= 5)%Z) by lia.
  pose proof (@ab_facts L1 E1 S1 F f _ _ _ _ _ _ _ _ _ HF Ht Ho R1) as A. cbv zeta in A. destruct A as (Hh & _ & K1 & Y1 & T1 & B1 & C1 & D1 & I1 & P1).
  pose proof (@ab_facts L2 E2 S2 G g _ _ _ _ _ _ _ _ _ HG Ht Ho R2) as A. cbv zeta in A. destruct A as (_ & _ & K2 & Y2 & T2 & B2 & C2 & D2 & I2 & P2).
  rewrite Nat2Z.id in * . rewrite Ly in D1, P1. rewrite Lz in D2, P2. set (h := Rmin dt (t1 - t0)) in * .
  assert (HhT : h <= T) by (unfold h; rewrite HTt; apply Rmin_r).
  assert (N2 : length (bo_t_vals r2) = length (bo_t_vals r1)) by (apply (ab_count t0 t1 h k); try assumption; lia).
  rewrite N2 in * . set (N := length (bo_t_vals r1)) in * .
  split. { apply (nth_ext _ _ 0 0); [exact N2|]. intros i Hi. rewrite N2 in Hi. rewrite T1, T2 by exact Hi. reflexivity. }
  intros i q Hi Hq. set (ys := bo_y_vals r1) in * . set (zs := bo_y_vals r2) in * . change (Rabs (ventry (yval ys i) q - ventry (yval zs i) q) <= exp (W * L * (2 * T)) * (1 + 2 * T * W) * (e + de)).
  assert (He0 : 0 <= e) by (pose proof (Hyz q Hq); pose proof (Rabs_pos (ventry y q - ventry z q)); lra).
  assert (Hd0 : 0 <= de) by (pose proof (Hfg t0 y q ltac:(lra) Ly Hq); pose proof (Rabs_pos (ventry (f t0 y) q - ventry (g t0 y) q)); lra).
  assert (Hexp1 : 1 <= exp (W * L * (2 * T))). { rewrite <- exp_0. apply exp_mono. assert (0 <= W * L) by nra. nra. }
  destruct (Nat.lt_ge_cases i k) as [Li|Li].
  { rewrite I1, I2 by exact Li. eapply Rle_trans; [apply Hyz, Hq|]. assert (1 <= exp (W * L * (2 * T)) * (1 + 2 * T * W)) by nra. nra. }
  assert (Hend : t0 + INR (N - 1) * h < t1 + h) by (destruct C1 as [C1|C1]; [lia|exact C1]).
  assert (Hin : forall j, (k <= j < N)%nat -> t0 <= t0 + INR (j - 1) * h <= t1).
  { intros j Hj. pose proof (pos_INR (j - 1)). split; [nra|]. assert (INR (j - 1) + 1 <= INR (N - 1)) by (rewrite <- S_INR; apply le_INR; lia). nra. }
  pose (ee := fun j => proj1_sig (constructive_indefinite_description _ (finite_max n (fun p => ventry (yval ys j) p - ventry (yval zs j) p)))).
  assert (He : forall j, 0 <= ee j /\ (forall p, (p < n)%nat -> Rabs (ventry (yval ys j) p - ventry (yval zs j) p) <= ee j) /\ (ee j = 0 \/ exists p, (p < n)%nat /\ ee j = Rabs (ventry (yval ys j) p - ventry (yval zs j) p))).
  { intros j. unfold ee. destruct (constructive_indefinite_description _ _) as (x & Hx). exact Hx. }
  assert (HG' : ee i <= exp (W * L * h * INR i) * (e + INR i * (h * (W * de)))).
  { assert (0 <= W * L) by nra. assert (0 <= W * de) by nra.
    apply (delayed_gronwall (N - 1) k (W * L * h) e (h * (W * de)) ee); [nra|exact He0|nra|lia| | |lia].
    - intros j Hj _. destruct (proj2 (proj2 (He j))) as [-> |(p & Hp & ->)]; [exact He0|]. rewrite I1, I2 by exact Hj. apply Hyz, Hp.
    - intros j E' Hj HE'. assert (E0 : 0 <= E') by (pose proof (proj1 (He O)); specialize (HE' O ltac:(lia)); lra).
      destruct (proj2 (proj2 (He j))) as [-> |(p & Hp & ->)]; [assert (0 <= W * L * h) by nra; assert (0 <= h * (W * de)) by nra; nra|].
      destruct (P1 j ltac:(lia)) as (_ & Q1). destruct (P2 j ltac:(lia)) as (_ & Q2). rewrite (Q1 p Hp), (Q2 p Hp).
      specialize (Hin j ltac:(lia)). set (s := t0 + INR (j - 1) * h) in * .
      replace (_ + _ - _) with ((ventry (yval ys (j - 1)) p - ventry (yval zs (j - 1)) p) +
        h * Rsum k (fun l => ab_weight k l * (ventry (f s (yval ys (j - 1 - l))) p - ventry (g s (yval zs (j - 1 - l))) p))).
      2:{ rewrite (Rsum_ext k (fun l => ab_weight k l * (_ - _)) (fun l => ab_weight k l * ventry (f s (yval ys (j - 1 - l))) p - ab_weight k l * ventry (g s (yval zs (j - 1 - l))) p)) by (intros; ring). rewrite Rsum_minus. ring. }
      assert (X1 : Rabs (ventry (yval ys (j - 1)) p - ventry (yval zs (j - 1)) p) <= E') by (eapply Rle_trans; [apply (proj1 (proj2 (He (j - 1)%nat))); exact Hp|apply HE'; lia]).
      assert (X3 : Rabs (Rsum k (fun l => ab_weight k l * (ventry (f s (yval ys (j - 1 - l))) p - ventry (g s (yval zs (j - 1 - l))) p))) <= W * (L * E' + de)).
      { eapply Rle_trans; [apply Rsum_abs|]. unfold W. rewrite <- Rsum_scal_r. apply Rsum_le. intros l Hl0. rewrite Rabs_mult. apply Rmult_le_compat_l; [apply Rabs_pos|].
        replace (_ - _) with ((ventry (f s (yval ys (j - 1 - l))) p - ventry (f s (yval zs (j - 1 - l))) p) + (ventry (f s (yval zs (j - 1 - l))) p - ventry (g s (yval zs (j - 1 - l))) p)) by ring.
        eapply Rle_trans; [apply Rabs_triang|]. apply Rplus_le_compat; [|apply Hfg; [exact Hin|apply D2; lia|exact Hp]].
        apply (Hl s); [exact Hin|apply D1; lia|apply D2; lia| |exact Hp]. intros p' Hp'. eapply Rle_trans; [apply (proj1 (proj2 (He _))); exact Hp'|apply HE'; lia]. }
      eapply Rle_trans; [apply Rabs_triang|]. rewrite Rabs_mult, (Rabs_pos_eq h) by lra.
      eapply Rle_trans; [apply Rplus_le_compat; [exact X1|apply Rmult_le_compat_l; [lra|exact X3]]|]. apply Req_le. ring. }
  eapply Rle_trans; [apply (proj1 (proj2 (He i))); exact Hq|]. eapply Rle_trans; [exact HG'|].
  assert (Hih : INR i * h <= 2 * T). { assert (INR i <= INR (N - 1)) by (apply le_INR; lia). nra. }
  pose proof (pos_INR i) as Hi0. assert (0 <= W * de) by nra. assert (0 <= W * L) by nra.
  rewrite (Rmult_assoc (exp (W * L * (2 * T)))). apply Rmult_le_compat; [left; apply exp_pos|assert (0 <= INR i * h) by nra; nra| |].
  - apply exp_mono. rewrite Rmult_assoc. apply Rmult_le_compat_l; nra.
  - replace (INR i * (h * (W * de))) with (INR i * h * (W * de)) by ring. assert (INR i * h * (W * de) <= 2 * T * (W * de)) by (apply Rmult_le_compat_r; lra). nra.
Qed.
