(** Runs of the Radau methods with two and three stages on problems that do not move away from a centre. *)
From Coq Require Import Reals Lra.
From Verif Require Import Model.Base Model.Scalar Model.LinAlg Model.Newton Model.Enums Model.Options Model.Coeffs Model.IrkCoeffs Model.Irk.
From Verif Require Import Spec.Sums Spec.Trees Spec.RkSpec Spec.Observe Spec.ErkSpec Spec.NewtonSpec Spec.IrkSpec Spec.IrkRunSpec Spec.IrkTotalSpec Spec.Methods Spec.StabilitySpec.
From Verif Require Import Proofs.SumsProofs Proofs.RVec Proofs.OrderProofs Proofs.LoopProofs Proofs.IrkRun Proofs.IrkFinal Proofs.IrkMaster Proofs.AlgStable Proofs.AlgStableTables Proofs.StabilityRuns Proofs.Coercive Proofs.CoerciveTables.
Local Open Scope R_scope.

(** ** Sequences of points *)
Section Linked.
  Variable Rel : R * list R -> R * list R -> Prop.
  Definition pts (t0 : R) (y0 : list R) (atts : list (iattempt R)) : list (R * list R) := (t0, y0) :: map pt (ended Accepted atts).
  Lemma linked_points t0 y0 (atts : list (iattempt R)) : ichained t0 y0 atts -> (forall x, In x (ended Accepted atts) -> Rel (ia_t x, ia_y x) (pt x)) ->
    (forall k, (S k < length (pts t0 y0 atts))%nat -> Rel (nth k (pts t0 y0 atts) (t0, y0)) (nth (S k) (pts t0 y0 atts) (t0, y0))) /\
    nth (length (ended Accepted atts)) (pts t0 y0 atts) (t0, y0) = (itime_after t0 atts, istate_after y0 atts).
  Proof.
    induction atts as [|a atts IH] using rev_ind; intros Hc Hp; [split; [intros k Hk; simpl in Hk; lia|reflexivity]|].
    apply ichained_snoc in Hc. destruct Hc as (Hc & E1 & E2). destruct (IH Hc) as [I1 I2]; [intros x Hx; apply Hp; rewrite ended_snoc; apply in_or_app; left; exact Hx|]. clear IH.
    unfold itime_after, istate_after, pts in * . rewrite ended_snoc in * . destruct (outcome_eqb (ia_out a) Accepted) eqn:Eo; [|rewrite !app_nil_r; auto].
    assert (Ha : Rel (ia_t a, ia_y a) (pt a)) by (apply Hp, in_or_app; right; left; reflexivity).
    rewrite !map_app, app_length. cbn [map]. rewrite !last_last. set (L := map pt (ended Accepted atts)) in * . set (l := length (ended Accepted atts)) in * . change ((t0, y0) :: L ++ [pt a]) with (((t0, y0) :: L) ++ [pt a]).
    assert (Ll : length ((t0, y0) :: L) = S l) by (simpl; unfold L; rewrite map_length; reflexivity). split.
    - rewrite app_length, Ll. cbn [length]. intros k Hk. destruct (Nat.eq_dec (S k) (S l)) as [E|E].
      + injection E as ->. rewrite (app_nth2 _ [pt a] (t0, y0) (n := S l)) by lia. rewrite Ll, Nat.sub_diag. rewrite app_nth1 by lia. rewrite I2. cbn [nth]. rewrite <- E1, <- E2. exact Ha.
      + rewrite !app_nth1 by lia. apply I1. lia.
    - rewrite app_nth2 by (rewrite Ll; cbn [length]; lia). rewrite Ll. cbn [length]. replace (l + 1 - S l)%nat with 0%nat by lia. reflexivity.
  Qed.
End Linked.

(** the elements recorded with interval k *)
Lemma every_from_period {A} k (l : list A) : (0 < k)%Z -> forall i, (0 <= i)%Z -> every_from k (i + k) l = every_from k i l.
Proof.
  intros Hk. induction l as [|a l IH]; intros i Hi; [reflexivity|]. cbn [every_from]. replace (i + k + 1)%Z with (i + 1 + k)%Z by lia. rewrite IH by lia.
  rewrite !Z.rem_mod_nonneg by lia. replace (i + k)%Z with (i + 1 * k)%Z by lia. rewrite Z_mod_plus_full. reflexivity.
Qed.
Lemma every_from_nth {A} (k : nat) (l : list A) d : (0 < k)%nat -> forall i j, (1 <= i <= k)%nat -> (j < length (every_from (Z.of_nat k) (Z.of_nat i) l))%nat ->
  (k - i + k * j < length l)%nat /\ nth j (every_from (Z.of_nat k) (Z.of_nat i) l) d = nth (k - i + k * j) l d.
Proof.
  intros Hk. induction l as [|a l IH]; intros i j Hi Hj; [simpl in Hj; lia|]. cbn [every_from] in * .
  destruct (Nat.eq_dec i k) as [->|Ne].
  - rewrite Z.rem_same in * by lia. cbn [Z.eqb app] in * . replace (k - k)%nat with 0%nat by lia. destruct j as [|j]; [cbn [nth length]; rewrite Nat.mul_0_r; split; [lia|reflexivity]|]. cbn [length] in Hj.
    replace (Z.of_nat k + 1)%Z with (Z.of_nat 1 + Z.of_nat k)%Z in * by lia. rewrite every_from_period in * by lia. destruct (IH 1%nat j ltac:(lia) ltac:(lia)) as [L1 L2]. cbn [nth length]. rewrite L2.
    replace (0 + k * S j)%nat with (S (k - 1 + k * j))%nat by nia. split; [lia|reflexivity].
  - rewrite Z.rem_small in * by lia. replace (Z.of_nat i =? 0)%Z with false in * by (symmetry; apply Z.eqb_neq; lia). cbn [app] in * . replace (Z.of_nat i + 1)%Z with (Z.of_nat (S i)) in * by lia.
    destruct (IH (S i) j ltac:(lia) Hj) as [L1 L2]. rewrite L2. replace (k - i + k * j)%nat with (S (k - S i + k * j))%nat by lia. cbn [length nth]. split; [lia|reflexivity].
Qed.

(** growth by A per step and B per unit of time *)
Definition grows (n : nat) (c : list R) (A B : R) (p q : R * list R) : Prop := fst p <= fst q /\ dist n (snd q) c <= dist n (snd p) c + (A + B * (fst q - fst p)).
Lemma grows_between n c A B l d : 0 <= A -> 0 <= B -> (forall k, (S k < length l)%nat -> grows n c A B (nth k l d) (nth (S k) l d)) ->
  forall i m, (i + m < length l)%nat -> fst (nth i l d) <= fst (nth (i + m) l d) /\
    dist n (snd (nth (i + m) l d)) c <= dist n (snd (nth i l d)) c + (INR m * A + B * (fst (nth (i + m) l d) - fst (nth i l d))).
Proof.
  intros HA HB Hl i m. induction m as [|m IH]; intros Hm; [rewrite Nat.add_0_r; simpl INR; lra|]. destruct (IH ltac:(lia)) as [I1 I2]. destruct (Hl (i + m)%nat ltac:(lia)) as [L1 L2].
  rewrite Nat.add_succ_r in * . rewrite S_INR. lra.
Qed.

Section Runs.
  Context {LA : LinAlg R} {HP : ExactProducts LA} {HX : ExactSolve LA} {HLU : ExactLU LA} {HI : ExactInverse LA} {HE : Env R} {St : Type}.
  Local Notation W := (world R St).
  Variables (F : functor R St) (f : R -> list R -> list R) (n : nat) (c : list R) (m : Z) (C ka : R).
  Hypothesis Hm : In (m, C) radau_growth.
  Hypothesis HF : computes F f.
  Hypothesis HJ : jac_matrices F.
  Hypothesis Hc : attracted_to n f c.

  Lemma growth_weights : exists wt, In (m, wt) last_weights.
  Proof. clear - Hm. unfold radau_growth in Hm. cbn [In] in Hm. destruct Hm as [H|[H|[]]]; injection H as <- _; [exists (1 / 4)|exists (1 / 9)]; unfold last_weights; cbn; tauto. Qed.
  Lemma growth_pos : 0 <= C.
  Proof. clear - Hm. unfold radau_growth in Hm. cbn [In] in Hm. destruct Hm as [H|[H|[]]]; injection H as _ <-; lra. Qed.
  Lemma dist_vtab k g g' : dist k (vtab k g) (vtab k g') = sqrt (Rsum k (fun p => (g p - g' p) * (g p - g' p))).
  Proof. unfold dist. f_equal. apply Rsum_ext. intros p Hp. rewrite !ventry_vt by exact Hp. reflexivity. Qed.
  Lemma dist_sq k x z : dist k x z * dist k x z = Rsum k (fun p => (ventry x p - ventry z p) * (ventry x p - ventry z p)).
  Proof. apply sqrt_sqrt, Rsum_nonneg. intros. apply Rle_0_sqr. Qed.

  Lemma solved_grows sc Rtol xtol atol rtol x Y J d d2 : 0 <= Rtol -> 0 <= xtol -> 0 <= ka -> xtol = 0 \/ jac_error F n f ka -> irk_get_coefficients m = Ok sc -> length (ia_y x) = n -> 0 < ia_dt x ->
    solved_step F f sc Rtol xtol atol rtol x Y J d d2 -> grows n c (C * Rtol) (C * (ka * xtol)) (ia_t x, ia_y x) (pt x).
  Proof.
    intros HR Hx0 Hka Hjac Hg N3 N2 [S1 S2 S3 (Y0 & J0 & e & S4 & S5 & S6 & S7) S8 S9 S10 [S11 S12] S13 S14]. rewrite N3 in * .
    destruct growth_weights as (wt & Hwt). destruct (closed_stable m wt sc Hwt Hg) as [[T1 T2 T3 T4 T5] _]. pose proof (radau_coercive m C sc Hm Hg) as Hco. pose proof growth_pos as HC0.
    set (s := length (sc_b sc)) in * . set (a := mfun (sc_A sc)) in * . set (b := vfun (sc_b sc)) in * . set (cc := vfun (sc_c sc)) in * . set (h := ia_dt x) in * .
    set (dl := stage_defect n s a cc f (ia_t x) h (ia_y x) Y).
    assert (Hdl : sqrt (dot2 s n dl dl) <= Rtol + ka * xtol * h).
    { assert (Hkx : 0 <= ka * xtol * h) by (apply Rmult_le_pos; [apply Rmult_le_pos; assumption|lra]). apply sq_le; [lra|]. rewrite sqrt_sqrt by apply dot2_pos. destruct S7 as [S7|S7].
      - change (dot2 s n dl dl < Rtol * Rtol) in S7. assert (Rtol * Rtol <= (Rtol + ka * xtol * h) * (Rtol + ka * xtol * h)) by (apply Rmult_le_compat; lra). lra.
      - destruct Hjac as [->|Hjac]. { exfalso. assert (0 <= Rsum (length e) (fun i => ventry e i * ventry e i)) by (apply Rsum_nonneg; intros; apply Rle_0_sqr). lra. }
        destruct (Hjac _ _ _ S5) as [Hdis Herr]. apply Rle_trans with ((ka * xtol * h) * (ka * xtol * h)); [|apply Rmult_le_compat; lra].
        eapply Rle_trans; [apply (newton_defect n s a cc f (ia_t x) h (ia_y x) J0 Y0 Y e ka); [exact (co_rows _ _ _ _ Hco)|lra| | |exact S6]|].
        + intros M HM. refine (dissipative_stage_matrix _ _ _ T2 T3 n (mentry J0) _ J0 M Hdis _ _ HM); [lra|reflexivity].
        + intros t' z z' Lz Lz'. specialize (Herr t' z z' Lz Lz'). rewrite dist_vtab in Herr. rewrite <- dist_sq. set (Q := Rsum n _) in * .
          assert (HQ : 0 <= Q) by (apply Rsum_nonneg; intros; apply Rle_0_sqr). rewrite <- (sqrt_sqrt Q HQ). pose proof (sqrt_pos Q).
          replace (ka * ka * (dist n z z' * dist n z z')) with (ka * dist n z z' * (ka * dist n z z')) by ring. apply Rmult_le_compat; assumption.
        + replace (ka * xtol * h * (ka * xtol * h)) with (h * ka * (h * ka) * (xtol * xtol)) by ring. apply Rmult_le_compat_l; [apply Rle_0_sqr|lra]. }
    pose proof (coercive_step s a b C T2 Hco n h (ventry (ia_y x)) (ventry c) (fun i p => ventry Y (n * i + p)) (fun j p => ventry (stage_slope n cc f (ia_t x) h (ia_y x) Y j) p) d ltac:(lra) S9) as HN.
    assert (Hin : forall i, (i < s)%nat -> Rsum n (fun p => ventry (stage_slope n cc f (ia_t x) h (ia_y x) Y i) p * (ventry (ia_y x) p + ventry Y (n * i + p) - ventry c p)) <= 0).
    { intros i Hi. pose proof (Hc (ia_t x + cc i * h) (stage_point n (ia_y x) Y i) (vtab_length _ _)) as H. eapply Rle_trans; [|exact H]. right. apply Rsum_ext. intros p Hp. unfold stage_slope.
      replace (ventry (stage_point n (ia_y x) Y i) p) with (ventry (ia_y x) p + ventry Y (n * i + p)) by (unfold stage_point; rewrite ventry_vt by exact Hp; reflexivity). reflexivity. }
    specialize (HN Hin). change (fun i p => ventry Y (n * i + p) - h * Rsum s (fun j => a i j * ventry (stage_slope n cc f (ia_t x) h (ia_y x) Y j) p)) with dl in HN.
    unfold grows, pt, ia_end. cbn [fst snd]. change (sadd (ia_t x) (ia_dt x)) with (ia_t x + ia_dt x). fold h. split; [lra|].
    assert (Ed : dist n (ia_yn x) c = sqrt (Rsum n (fun p => (ventry (ia_y x) p + Rsum s (fun i => d i * ventry Y (n * i + p)) - ventry c p) * (ventry (ia_y x) p + Rsum s (fun i => d i * ventry Y (n * i + p)) - ventry c p)))).
    { unfold dist. f_equal. apply Rsum_ext. intros p Hp. rewrite S12 by exact Hp. reflexivity. }
    rewrite Ed. eapply Rle_trans; [exact HN|]. replace (ia_t x + h - ia_t x) with h by ring. change (dist n (ia_y x) c + C * sqrt (dot2 s n dl dl) <= dist n (ia_y x) c + (C * Rtol + C * (ka * xtol) * h)). pose proof (Rmult_le_compat_l C _ _ HC0 Hdl). lra.
  Qed.

  Lemma radau_run fuel t0 t1 y0 opts nopts oo dt (w w' : W) sol : length y0 = n -> (ndebug = false \/ (t0 < t1 /\ 0 < dt)) -> (0 < output_interval oo)%Z ->
    io_newton opts = Some nopts -> 0 <= o_tol nopts -> 0 <= o_dx_delta nopts -> 0 <= ka -> o_dx_delta nopts = 0 \/ jac_error F n f ka ->
    irk_odeint fuel F t0 t1 y0 opts oo m dt w = (w', Ok sol) ->
    length (io_t_vals sol) = length (io_y_vals sol) /\
    forall i j, (i < j)%nat -> (j < length (io_y_vals sol))%nat ->
      dist n (nth j (io_y_vals sol) []) c <= dist n (nth i (io_y_vals sol) []) c +
        C * (IZR (output_interval oo) * INR (j - i) * o_tol nopts + ka * o_dx_delta nopts * (nth j (io_t_vals sol) 0 - nth i (io_t_vals sol) 0)).
  Proof.
    intros Hn Hstart Hoi Hno HR Hx0 Hka Hjac Hrun.
    destruct (irk_run_R F f HF HJ fuel t0 t1 y0 opts oo m dt Hstart _ _ _ Hrun) as (sc & nopts' & atts & Hg & _ & _ & _ & _ & _ & Hno' & Hrec & Hch & Hall & _).
    rewrite Hno in Hno'. injection Hno' as <-. pose proof growth_pos as HC0.
    assert (HA : 0 <= C * o_tol nopts) by (apply Rmult_le_pos; assumption). assert (HB : 0 <= C * (ka * o_dx_delta nopts)) by (repeat apply Rmult_le_pos; assumption).
    destruct (linked_points (grows n c (C * o_tol nopts) (C * (ka * o_dx_delta nopts))) t0 y0 atts Hch) as [HL _].
    { intros x Hx. apply ended_in in Hx. destruct Hx as [Hx Ho]. rewrite Forall_forall in Hall. destruct (Hall x Hx) as (_ & N2 & N3 & N4). rewrite Hn in N3.
      destruct (N4 ltac:(congruence)) as (_ & _ & Y & J & d & d2 & Hs). exact (solved_grows sc _ _ _ _ x Y J d d2 HR Hx0 Hka Hjac Hg N3 (proj1 N2) Hs). }
    destruct Hrec as (R1 & R2 & _). destruct (store_in_vectors oo) eqn:Est.
    2:{ rewrite R1, R2. split; [reflexivity|]. intros i j Hij Hj. simpl in Hj. lia. }
    set (k := Z.to_nat (output_interval oo)). assert (Ek : output_interval oo = Z.of_nat k) by (unfold k; lia). unfold shown, every in R1, R2. rewrite Ek in * .
    set (kept := every_from (Z.of_nat k) 1 (ended Accepted atts)) in * . rewrite R1, R2. split; [simpl; rewrite !map_length; reflexivity|].
    assert (E : forall i, (i < S (length kept))%nat -> (k * i < length (pts t0 y0 atts))%nat /\ nth i (t0 :: map ia_end kept) 0 = fst (nth (k * i) (pts t0 y0 atts) (t0, y0)) /\ nth i (y0 :: map ia_yn kept) [] = snd (nth (k * i) (pts t0 y0 atts) (t0, y0))).
    { unfold pts. intros [|i] Hi; [rewrite Nat.mul_0_r; split; [simpl; lia|split; reflexivity]|]. 
      destruct (every_from_nth k (ended Accepted atts) (IAttempt t0 0 y0 Accepted y0 [] 0) ltac:(lia) 1%nat i ltac:(lia) ltac:(unfold kept in Hi; simpl Z.of_nat; lia)) as [L1 L2].
      change (Z.of_nat 1) with 1%Z in L2. fold kept in L2. replace (k * S i)%nat with (S (k - 1 + k * i))%nat by nia. cbn [length nth]. rewrite map_length. split; [lia|].
      set (dflt := IAttempt t0 0 y0 Accepted y0 [] 0) in * .
      rewrite (nth_indep _ 0 (ia_end dflt)) by (rewrite map_length; lia). rewrite (nth_indep _ [] (ia_yn dflt)) by (rewrite map_length; lia). rewrite (nth_indep (map pt _) (t0, y0) (pt dflt)) by (rewrite map_length; lia).
      rewrite !map_nth, L2. split; reflexivity. }
    intros i j Hij Hj. cbn [length] in Hj. rewrite map_length in Hj. destruct (E i ltac:(lia)) as (_ & E1 & E2). destruct (E j Hj) as (E3 & E4 & E5). rewrite E1, E2, E4, E5.
    pose proof (grows_between n c _ _ _ (t0, y0) HA HB HL (k * i) (k * (j - i))) as H. replace (k * i + k * (j - i))%nat with (k * j)%nat in H by nia. destruct (H E3) as [_ H2].
    rewrite mult_INR, INR_IZR_INZ in H2. lra.
  Qed.
End Runs.
