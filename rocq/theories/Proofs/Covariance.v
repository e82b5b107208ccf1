(** Explicit runs commute with affine changes of variables and respect superposition (C122, C123). *)
From Coq Require Import Reals Lra.
From Verif Require Import Model.Base Model.Scalar Model.LinAlg Model.Enums Model.Options Model.Coeffs Model.ErkCoeffs Model.Erk.
From Verif Require Import Spec.Sums Spec.Trees Spec.Observe Spec.RkSpec Spec.ErkSpec Spec.Methods Spec.Covariance.
From Verif Require Import Proofs.SumsProofs Proofs.TablesFinal Proofs.ErkProofs Proofs.ErkRun Proofs.ErkGeneric Proofs.ErkReal Proofs.ErkExact Proofs.ErkTotal Proofs.ErkFinal Proofs.Mesh.
Local Open Scope R_scope.

(** ** one step: v + M1 y1 + M2 y2 of two steps *)
Section Step.
  Variables (n1 n2 n s : nat) (a : nat -> nat -> R) (b c : nat -> R).
  Variables (M1 M2 : nat -> nat -> R) (v : nat -> R) (sc sh : R).
  Variables (f1 f2 g : R -> list R -> list R).
  Definition comb (y1 y2 : list R) : list R := vtab n (fun q => v q + Rsum n1 (fun p => M1 q p * ventry y1 p) + Rsum n2 (fun p => M2 q p * ventry y2 p)).
  Hypothesis Hsc : sc <> 0.
  Hypothesis Hg : forall t y1 y2, length y1 = n1 -> length y2 = n2 ->
    g (sc * t + sh) (comb y1 y2) = vtab n (fun q => (Rsum n1 (fun p => M1 q p * ventry (f1 t y1) p) + Rsum n2 (fun p => M2 q p * ventry (f2 t y2) p)) / sc).
  Hypothesis Ha : forall i j, (i < s)%nat -> (i <= j < s)%nat -> a i j = 0.

  Lemma pull m (M : nat -> nat -> R) q h (w : nat -> R) y K r : (r <= s)%nat ->
    Rsum m (fun p => M q p * ventry (vtab m (fun p => ventry y p + h * Rsum r (fun j => w j * ventry (nth j K []) p))) p) =
    Rsum m (fun p => M q p * ventry y p) + h * Rsum r (fun j => w j * Rsum m (fun p => M q p * ventry (nth j K []) p)).
  Proof.
    intros _. transitivity (Rsum m (fun p => M q p * ventry y p + Rsum r (fun j => h * (w j * (M q p * ventry (nth j K []) p))))).
    - apply Rsum_ext. intros p Hp. unfold ventry at 1. rewrite vtab_nth by exact Hp. rewrite (Rsum_scal r h). rewrite Rmult_plus_distr_l. f_equal.
      rewrite <- Rmult_assoc, (Rmult_comm (M q p) h), Rmult_assoc. f_equal. rewrite <- (Rsum_scal r (M q p)). apply Rsum_ext. intros. ring.
    - rewrite Rsum_plus. f_equal. rewrite Rsum_swap. rewrite <- (Rsum_scal r h). apply Rsum_ext. intros j Hj. rewrite (Rsum_scal m h). f_equal. rewrite (Rsum_scal m (w j)). reflexivity.
  Qed.

  Lemma step_comb t h y1 y1' K1 y2 y2' K2 z' K : length y1 = n1 -> length y2 = n2 ->
    rk_step n1 s a b c f1 t h y1 y1' K1 -> rk_step n2 s a b c f2 t h y2 y2' K2 ->
    rk_step n s a b c g (sc * t + sh) (sc * h) (comb y1 y2) z' K -> z' = comb y1' y2'.
  Proof.
    intros L1 L2 (LK1 & S1 & ->) (LK2 & S2 & ->) (LK & S3 & ->).
    assert (HK : forall i, (i < s)%nat -> nth i K [] = vtab n (fun q => (Rsum n1 (fun p => M1 q p * ventry (nth i K1 []) p) + Rsum n2 (fun p => M2 q p * ventry (nth i K2 []) p)) / sc)).
    { induction i as [i IH] using lt_wf_ind. intros Hi.
      set (u1 := vtab n1 (fun q => ventry y1 q + h * Rsum s (fun j => a i j * ventry (nth j K1 []) q))).
      set (u2 := vtab n2 (fun q => ventry y2 q + h * Rsum s (fun j => a i j * ventry (nth j K2 []) q))).
      rewrite (proj2 (S3 i Hi)). replace (sc * t + sh + c i * (sc * h)) with (sc * (t + c i * h) + sh) by ring.
      transitivity (g (sc * (t + c i * h) + sh) (comb u1 u2)).
      - f_equal. unfold comb. apply vtab_ext. intros q Hq. unfold ventry at 1. rewrite vtab_nth by exact Hq. unfold u1, u2. rewrite !pull by lia.
        assert (E : sc * h * Rsum s (fun j => a i j * ventry (nth j K []) q) =
          h * Rsum s (fun j => a i j * Rsum n1 (fun p => M1 q p * ventry (nth j K1 []) p)) + h * Rsum s (fun j => a i j * Rsum n2 (fun p => M2 q p * ventry (nth j K2 []) p))).
        { rewrite <- Rmult_plus_distr_l, <- Rsum_plus, (Rmult_comm sc h), Rmult_assoc. f_equal. rewrite <- (Rsum_scal s sc). apply Rsum_ext. intros j Hj.
          destruct (le_lt_dec i j) as [H|H]; [rewrite Ha by lia; ring|]. rewrite (IH j H Hj). unfold ventry at 1. rewrite vtab_nth by exact Hq. field. exact Hsc. }
        rewrite E. ring.
      - rewrite Hg by apply vtab_length. pose proof (proj2 (S1 i Hi)) as e1. pose proof (proj2 (S2 i Hi)) as e2. fold u1 in e1. fold u2 in e2. rewrite <- e1, <- e2. reflexivity. }
    unfold comb at 2. apply vtab_ext. intros q Hq. unfold comb, ventry at 1. rewrite vtab_nth by exact Hq. rewrite !pull by lia.
    assert (E : sc * h * Rsum s (fun i => b i * ventry (nth i K []) q) =
      h * Rsum s (fun j => b j * Rsum n1 (fun p => M1 q p * ventry (nth j K1 []) p)) + h * Rsum s (fun j => b j * Rsum n2 (fun p => M2 q p * ventry (nth j K2 []) p))).
    { rewrite <- Rmult_plus_distr_l, <- Rsum_plus, (Rmult_comm sc h), Rmult_assoc. f_equal. rewrite <- (Rsum_scal s sc). apply Rsum_ext. intros j Hj.
      rewrite (HK j Hj). unfold ventry at 1. rewrite vtab_nth by exact Hq. field. exact Hsc. }
    rewrite E. ring.
  Qed.
End Step.

(** ** runs *)
Section Runs.
  Context {E1 E2 E3 : Env R} {L1 L2 L3 : LinAlg R} {X1 : ExactProducts L1} {X2 : ExactProducts L2} {X3 : ExactProducts L3} {S1 S2 S3 : Type}.
  Variables (F1 : functor R S1) (F2 : functor R S2) (F3 : functor R S3) (f1 f2 g : R -> list R -> list R).
  Hypotheses (H1 : computes F1 f1) (H2 : computes F2 f2) (H3 : computes F3 g).
  Variables (M1 M2 : nat -> nat -> R) (v : nat -> R) (sc sh : R) (m : Z).
  Hypothesis Hsc : sc <> 0.
  Lemma combine_runs fu1 a0 a1 y1 o1 oo1 d1 w1 w1' r1 fu2 b0 b1 y2 o2 oo2 d2 w2 w2' r2 fu3 c0 c1 z o3 oo3 d3 w3 w3' r3 :
    (forall t u1 u2, length u1 = length y1 -> length u2 = length y2 ->
      g (sc * t + sh) (comb (length y1) (length y2) (length z) M1 M2 v u1 u2) =
      vtab (length z) (fun q => (Rsum (length y1) (fun p => M1 q p * ventry (f1 t u1) p) + Rsum (length y2) (fun p => M2 q p * ventry (f2 t u2) p)) / sc)) ->
    @erk_odeint R RScalar L1 E1 S1 fu1 F1 a0 a1 y1 o1 oo1 m d1 w1 = (w1', Ok r1) ->
    @erk_odeint R RScalar L2 E2 S2 fu2 F2 b0 b1 y2 o2 oo2 m d2 w2 = (w2', Ok r2) ->
    @erk_odeint R RScalar L3 E3 S3 fu3 F3 c0 c1 z o3 oo3 m d3 w3 = (w3', Ok r3) ->
    z = comb (length y1) (length y2) (length z) M1 M2 v y1 y2 ->
    eo_t_vals r2 = eo_t_vals r1 -> eo_t_vals r3 = map (fun t => sc * t + sh) (eo_t_vals r1) ->
    forall k, (k < length (eo_t_vals r1))%nat -> nth k (eo_y_vals r3) [] = comb (length y1) (length y2) (length z) M1 M2 v (nth k (eo_y_vals r1) []) (nth k (eo_y_vals r2) []).
  Proof.
    intros Hg R1 R2 R3 Hz T2 T3.
    destruct (erk_is_rk F1 f1 H1 _ _ _ _ _ _ _ _ _ _ _ R1) as (tab & G1 & K1).
    destruct (erk_is_rk F2 f2 H2 _ _ _ _ _ _ _ _ _ _ _ R2) as (tab' & G2 & K2). rewrite G1 in G2. injection G2 as <-.
    destruct (erk_is_rk F3 g H3 _ _ _ _ _ _ _ _ _ _ _ R3) as (tab' & G3 & K3). rewrite G1 in G3. injection G3 as <-.
    pose proof (@erk_aligned R RScalar L1 E1 S1 F1 _ _ _ _ _ _ _ _ _ _ _ R1) as A1. cbv zeta in A1. destruct A1 as (_ & Ly1 & _ & _ & _ & _ & Y1 & D1 & _ & st & Hst & _).
    pose proof (@erk_aligned R RScalar L2 E2 S2 F2 _ _ _ _ _ _ _ _ _ _ _ R2) as A2. cbv zeta in A2. destruct A2 as (_ & Ly2 & _ & _ & _ & _ & Y2 & D2 & _).
    pose proof (@erk_aligned R RScalar L3 E3 S3 F3 _ _ _ _ _ _ _ _ _ _ _ R3) as A3. cbv zeta in A3. destruct A3 as (_ & Ly3 & _ & _ & _ & _ & Y3 & _).
    assert (Hm : In m explicit_methods) by (eapply counted_method, Hst).
    assert (Hlow : forall p q, (p < length (sc_b tab))%nat -> (p <= q < length (sc_b tab))%nat -> mfun (sc_A tab) p q = 0).
    { intros p q Hp Hq. destruct (erk_rows m tab Hm G1) as (_ & Hr). apply (proj2 (Hr p Hp) q Hq). }
    rewrite Forall_forall in D1, D2.
    assert (Lt3 : length (eo_t_vals r3) = length (eo_t_vals r1)) by (rewrite T3; apply map_length).
    assert (N3 : forall k, (k < length (eo_t_vals r1))%nat -> nth k (eo_t_vals r3) 0 = sc * nth k (eo_t_vals r1) 0 + sh).
    { intros k Hk. rewrite T3. rewrite (nth_indep _ 0 (sc * 0 + sh)) by (rewrite map_length; exact Hk). apply (map_nth (fun t => sc * t + sh)). }
    rewrite T2 in K2, Ly2.
    induction k as [|k IH]; intros Hk.
    - rewrite (nth_error_nth _ _ _ Y1), (nth_error_nth _ _ _ Y2), (nth_error_nth _ _ _ Y3). exact Hz.
    - specialize (IH ltac:(lia)). destruct (K1 k Hk) as (Ka & _ & Pa). destruct (K2 k Hk) as (Kb & _ & Pb). destruct (K3 k ltac:(lia)) as (Kc & _ & Pc).
      pose proof (D1 (nth k (eo_y_vals r1) []) ltac:(apply nth_In; lia)) as Q1. pose proof (D2 (nth k (eo_y_vals r2) []) ltac:(apply nth_In; lia)) as Q2.
      rewrite IH, !N3 in Pc by lia.
      replace (sc * nth (S k) (eo_t_vals r1) 0 + sh - (sc * nth k (eo_t_vals r1) 0 + sh)) with (sc * (nth (S k) (eo_t_vals r1) 0 - nth k (eo_t_vals r1) 0)) in Pc by ring.
      apply (step_comb _ _ _ _ _ _ _ M1 M2 v sc sh f1 f2 g Hsc Hg Hlow _ _ _ _ _ _ _ _ _ _ Q1 Q2 Pa Pb Pc).
  Qed.
End Runs.

Lemma comb_affine n1 n2 n M v y1 y2 : comb n1 n2 n M (fun _ _ => 0) v y1 y2 = affine_map n1 n M v y1.
Proof. unfold comb, affine_map. apply vtab_ext. intros q _. rewrite (Rsum_0 n2) by (intros; ring). ring. Qed.
Lemma vtab_map n (h : nat -> R) (k : R -> R) : map k (vtab n h) = vtab n (fun q => k (h q)).
Proof. unfold vtab. apply map_map. Qed.

Section Affine.
  Context {E1 E3 : Env R} {L1 L3 : LinAlg R} {X1 : ExactProducts L1} {X3 : ExactProducts L3} {S1 S3 : Type}.
  Variables (F1 : functor R S1) (F3 : functor R S3) (f g : R -> list R -> list R).
  Hypotheses (H1 : computes F1 f) (H3 : computes F3 g).
  Variables (M : nat -> nat -> R) (v : nat -> R) (a s : R) (m : Z).
  Hypothesis Ha : a <> 0.
  Lemma affine_runs fu1 a0 a1 y o1 oo1 d1 w1 w1' r1 fu3 c0 c1 z o3 oo3 d3 w3 w3' r3 :
    conjugate (length y) (length z) M v a s f g ->
    @erk_odeint R RScalar L1 E1 S1 fu1 F1 a0 a1 y o1 oo1 m d1 w1 = (w1', Ok r1) ->
    @erk_odeint R RScalar L3 E3 S3 fu3 F3 c0 c1 z o3 oo3 m d3 w3 = (w3', Ok r3) ->
    z = affine_map (length y) (length z) M v y -> eo_t_vals r3 = map (fun t => a * t + s) (eo_t_vals r1) ->
    eo_y_vals r3 = map (affine_map (length y) (length z) M v) (eo_y_vals r1).
  Proof.
    intros Hc R1 R3 Hz HT.
    pose proof (@erk_aligned R RScalar L1 E1 S1 F1 _ _ _ _ _ _ _ _ _ _ _ R1) as A1. cbv zeta in A1. destruct A1 as (_ & Ly1 & _).
    pose proof (@erk_aligned R RScalar L3 E3 S3 F3 _ _ _ _ _ _ _ _ _ _ _ R3) as A3. cbv zeta in A3. destruct A3 as (_ & Ly3 & _).
    apply (nth_ext _ _ [] (affine_map (length y) (length z) M v [])); [rewrite map_length, Ly3, HT, map_length; lia|]. intros k Hk. rewrite map_nth.
    rewrite <- (comb_affine (length y) (length y) (length z) M v _ (nth k (eo_y_vals r1) [])).
    eapply (@combine_runs E1 E1 E3 L1 L1 L3 X1 X1 X3 S1 S1 S3 F1 F1 F3 f f g H1 H1 H3 M (fun _ _ => 0) v a s m Ha _ _ _ _ _ _ _ _ _ r1 _ _ _ _ _ _ _ _ _ r1 _ _ _ _ _ _ _ _ _ r3);
      [|exact R1|exact R1|exact R3|rewrite comb_affine; exact Hz|reflexivity|exact HT|rewrite Ly3, HT, map_length in Hk; exact Hk].
    intros t u1 u2 L L'. rewrite comb_affine, (Hc t u1 L). unfold linear_map. rewrite vtab_map. apply vtab_ext. intros q _.
    rewrite (Rsum_0 (length y) (fun p => 0 * ventry (f t u2) p)) by (intros; ring). field. exact Ha.
  Qed.

  (** fixed steps *)
  Lemma affine_fixed t0 t1 dt fu1 y o1 oo1 w1 w1' r1 fu3 z o3 oo3 w3 w3' r3 :
    conjugate (length y) (length z) M v a s f g -> In m explicit_methods -> 0 < a -> t0 < t1 -> 0 < dt ->
    (eo_adaptive o1 = false /\ eo_adaptive o3 = false) \/ ~ In m explicit_embedded ->
    @erk_odeint R RScalar L1 E1 S1 fu1 F1 t0 t1 y o1 oo1 m dt w1 = (w1', Ok r1) -> eo_status r1 = SUCCESS ->
    @erk_odeint R RScalar L3 E3 S3 fu3 F3 (a * t0 + s) (a * t1 + s) z o3 oo3 m (a * dt) w3 = (w3', Ok r3) -> eo_status r3 = SUCCESS ->
    z = affine_map (length y) (length z) M v y ->
    eo_t_vals r3 = map (fun t => a * t + s) (eo_t_vals r1) /\ eo_y_vals r3 = map (affine_map (length y) (length z) M v) (eo_y_vals r1).
  Proof.
    intros Hc Hm Hp Ht Hdt Hfix R1 Q1 R3 Q3 Hz.
    pose proof (Rmult_lt_0_compat _ _ Hp Hdt) as Hadt. pose proof (Rmult_lt_compat_l _ _ _ Hp Ht) as Hat.
    assert (HT : eo_t_vals r3 = map (fun t => a * t + s) (eo_t_vals r1)).
    { destruct (@erk_fixed_grid E1 L1 S1 F1 t0 t1 y o1 oo1 m dt Hm Ht Hdt ltac:(tauto) _ _ _ _ R1) as (_ & Ga). destruct (Ga Q1) as (Na & Pa & Ba & Ta).
      destruct (@erk_fixed_grid E3 L3 S3 F3 (a * t0 + s) (a * t1 + s) z o3 oo3 m (a * dt) Hm ltac:(lra) Hadt ltac:(tauto) _ _ _ _ R3) as (_ & Gc). destruct (Gc Q3) as (Nc & Pc & Bc & Tc).
      assert (EN : Nc = Na).
      { assert (B1 : INR (Nc - 1) * dt < t1 - t0) by (apply (Rmult_lt_reg_l a); [exact Hp|lra]).
        assert (B2 : t1 - t0 <= INR Nc * dt) by (apply (Rmult_le_reg_l a); [exact Hp|lra]).
        assert (J1 : INR (Nc - 1) < INR Na) by (apply (Rmult_lt_reg_r dt); [exact Hdt|lra]).
        assert (J2 : INR (Na - 1) < INR Nc) by (apply (Rmult_lt_reg_r dt); [exact Hdt|lra]). apply INR_lt in J1. apply INR_lt in J2. lia. }
      subst Nc. rewrite Ta, Tc, map_app, map_map. simpl. f_equal. apply map_ext. intros k. ring. }
    split; [exact HT|]. exact (affine_runs _ _ _ _ _ _ _ _ _ r1 _ _ _ _ _ _ _ _ _ r3 Hc R1 R3 Hz HT).
  Qed.
End Affine.

Lemma comb_combination n al be x y : comb n n n (fun q p => if Nat.eq_dec p q then al else 0) (fun q p => if Nat.eq_dec p q then be else 0) (fun _ => 0) x y = combination n al be x y.
Proof.
  unfold comb, combination. apply vtab_ext. intros q Hq.
  rewrite (Rsum_single n q (fun p => (if Nat.eq_dec p q then al else 0) * ventry x p)), (Rsum_single n q (fun p => (if Nat.eq_dec p q then be else 0) * ventry y p)); try assumption.
  - destruct (Nat.eq_dec q q) as [_|H]; [ring|destruct H; reflexivity].
  - intros i _ Hi. destruct (Nat.eq_dec i q); [contradiction|ring].
  - intros i _ Hi. destruct (Nat.eq_dec i q); [contradiction|ring].
Qed.

Section Super.
  Context {E1 E2 E3 : Env R} {L1 L2 L3 : LinAlg R} {X1 : ExactProducts L1} {X2 : ExactProducts L2} {X3 : ExactProducts L3} {S1 S2 S3 : Type}.
  Variables (F1 : functor R S1) (F2 : functor R S2) (F3 : functor R S3) (f g h : R -> list R -> list R).
  Hypotheses (H1 : computes F1 f) (H2 : computes F2 g) (H3 : computes F3 h).
  Variables (n : nat) (al be : R) (m : Z).
  Lemma superposition fu1 a0 a1 x o1 oo1 d1 w1 w1' r1 fu2 b0 b1 y o2 oo2 d2 w2 w2' r2 fu3 c0 c1 o3 oo3 d3 w3 w3' r3 :
    superposes n al be f g h -> length x = n -> length y = n ->
    @erk_odeint R RScalar L1 E1 S1 fu1 F1 a0 a1 x o1 oo1 m d1 w1 = (w1', Ok r1) ->
    @erk_odeint R RScalar L2 E2 S2 fu2 F2 b0 b1 y o2 oo2 m d2 w2 = (w2', Ok r2) ->
    @erk_odeint R RScalar L3 E3 S3 fu3 F3 c0 c1 (combination n al be x y) o3 oo3 m d3 w3 = (w3', Ok r3) ->
    eo_t_vals r2 = eo_t_vals r1 -> eo_t_vals r3 = eo_t_vals r1 ->
    forall k, (k < length (eo_t_vals r1))%nat -> nth k (eo_y_vals r3) [] = combination n al be (nth k (eo_y_vals r1) []) (nth k (eo_y_vals r2) []).
  Proof.
    intros Hs Lx Ly R1 R2 R3 T2 T3 k Hk.
    assert (Lz : length (combination n al be x y) = n) by apply vtab_length.
    rewrite <- comb_combination.
    assert (T3' : eo_t_vals r3 = map (fun t => 1 * t + 0) (eo_t_vals r1)) by (rewrite T3; rewrite <- (map_id (eo_t_vals r1)) at 1; apply map_ext; intros; ring).
    pose proof (@combine_runs E1 E2 E3 L1 L2 L3 X1 X2 X3 S1 S2 S3 F1 F2 F3 f g h H1 H2 H3 (fun q p => if Nat.eq_dec p q then al else 0) (fun q p => if Nat.eq_dec p q then be else 0) (fun _ => 0) 1 0 m ltac:(lra)
      fu1 a0 a1 x o1 oo1 d1 w1 w1' r1 fu2 b0 b1 y o2 oo2 d2 w2 w2' r2 fu3 c0 c1 (combination n al be x y) o3 oo3 d3 w3 w3' r3) as K. rewrite Lx, Ly, Lz in K. apply K; [|exact R1|exact R2|exact R3|symmetry; apply comb_combination|exact T2|exact T3'|exact Hk].
    intros t u1 u2 Lu1 Lu2. rewrite comb_combination. replace (1 * t + 0) with t by ring. rewrite (Hs t u1 u2 Lu1 Lu2). rewrite <- comb_combination. unfold comb. apply vtab_ext. intros q _. field.
  Qed.
End Super.

Section SuperFixed.
  Context {E1 E2 E3 : Env R} {L1 L2 L3 : LinAlg R} {X1 : ExactProducts L1} {X2 : ExactProducts L2} {X3 : ExactProducts L3} {S1 S2 S3 : Type}.
  Variables (F1 : functor R S1) (F2 : functor R S2) (F3 : functor R S3) (f g h : R -> list R -> list R).
  Hypotheses (H1 : computes F1 f) (H2 : computes F2 g) (H3 : computes F3 h).
  Variables (n : nat) (al be : R) (m : Z) (t0 t1 dt : R) (o1 o2 o3 : erk_options R).
  Hypotheses (Hm : In m explicit_methods) (Ht : t0 < t1) (Hdt : 0 < dt).
  Hypothesis Hfix : (eo_adaptive o1 = false /\ eo_adaptive o2 = false /\ eo_adaptive o3 = false) \/ ~ In m explicit_embedded.
  Lemma super_fixed fu1 x oo1 w1 w1' r1 fu2 y oo2 w2 w2' r2 fu3 oo3 w3 w3' r3 :
    superposes n al be f g h -> length x = n -> length y = n ->
    @erk_odeint R RScalar L1 E1 S1 fu1 F1 t0 t1 x o1 oo1 m dt w1 = (w1', Ok r1) -> eo_status r1 = SUCCESS ->
    @erk_odeint R RScalar L2 E2 S2 fu2 F2 t0 t1 y o2 oo2 m dt w2 = (w2', Ok r2) -> eo_status r2 = SUCCESS ->
    @erk_odeint R RScalar L3 E3 S3 fu3 F3 t0 t1 (combination n al be x y) o3 oo3 m dt w3 = (w3', Ok r3) -> eo_status r3 = SUCCESS ->
    eo_t_vals r2 = eo_t_vals r1 /\ eo_t_vals r3 = eo_t_vals r1 /\
    forall k, (k < length (eo_t_vals r1))%nat -> nth k (eo_y_vals r3) [] = combination n al be (nth k (eo_y_vals r1) []) (nth k (eo_y_vals r2) []).
  Proof.
    intros Hs Lx Ly R1 Q1 R2 Q2 R3 Q3.
    destruct (@erk_fixed_grid E1 L1 S1 F1 t0 t1 x o1 oo1 m dt Hm Ht Hdt ltac:(tauto) _ _ _ _ R1) as (_ & G1). destruct (G1 Q1) as (N1 & P1 & B1 & T1).
    destruct (@erk_fixed_grid E2 L2 S2 F2 t0 t1 y o2 oo2 m dt Hm Ht Hdt ltac:(tauto) _ _ _ _ R2) as (_ & G2). destruct (G2 Q2) as (N2 & P2 & B2 & T2).
    destruct (@erk_fixed_grid E3 L3 S3 F3 t0 t1 (combination n al be x y) o3 oo3 m dt Hm Ht Hdt ltac:(tauto) _ _ _ _ R3) as (_ & G3). destruct (G3 Q3) as (N3 & P3 & B3 & T3).
    assert (U : forall N N', (1 <= N)%nat -> (1 <= N')%nat -> INR (N - 1) * dt < t1 - t0 <= INR N * dt -> INR (N' - 1) * dt < t1 - t0 <= INR N' * dt -> N' = N).
    { intros N N' HN HN' [b1 b2] [b3 b4].
      assert (J1 : INR (N' - 1) < INR N) by (apply (Rmult_lt_reg_r dt); [exact Hdt|lra]).
      assert (J2 : INR (N - 1) < INR N') by (apply (Rmult_lt_reg_r dt); [exact Hdt|lra]). apply INR_lt in J1. apply INR_lt in J2. lia. }
    rewrite (U N1 N2 P1 P2 B1 B2) in T2. rewrite (U N1 N3 P1 P3 B1 B3) in T3.
    assert (E12 : eo_t_vals r2 = eo_t_vals r1) by congruence. assert (E13 : eo_t_vals r3 = eo_t_vals r1) by congruence.
    split; [exact E12|]. split; [exact E13|].
    exact (@superposition E1 E2 E3 L1 L2 L3 X1 X2 X3 S1 S2 S3 F1 F2 F3 f g h H1 H2 H3 n al be m _ _ _ _ _ _ _ _ _ r1 _ _ _ _ _ _ _ _ _ r2 _ _ _ _ _ _ _ _ r3 Hs Lx Ly R1 R2 R3 E12 E13).
  Qed.
End SuperFixed.
