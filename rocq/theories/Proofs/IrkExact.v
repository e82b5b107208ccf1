(** What solved steps of the implicit integrator preserve and integrate exactly. *)
From Coq Require Import Reals Lra Sorting.Sorted.
From Verif Require Import Model.Base Model.Scalar Model.LinAlg Model.Newton Model.Enums Model.Options Model.Coeffs Model.Irk Model.IrkCoeffs.
From Verif Require Import Spec.Sums Spec.Trees Spec.RkSpec Spec.Observe Spec.ErkSpec Spec.NewtonSpec Spec.IrkSpec Spec.IrkRunSpec Spec.Methods.
From Verif Require Import Proofs.LoopProofs Proofs.SumsProofs Proofs.OrderProofs Proofs.TablesGeneric Proofs.TablesFinal Proofs.ErkProofs Proofs.ErkReal Proofs.ErkTimes Proofs.NewtonProofs Proofs.RVec
  Proofs.RkExact Proofs.IrkProofs Proofs.IrkReal Proofs.IrkStages Proofs.IrkRun Proofs.IrkGeneric Proofs.IrkResults Proofs.IrkSteps Proofs.IrkTimes Proofs.IrkMaster Proofs.IrkFinal.
Local Open Scope R_scope.

Section Step.
  Variables (n s : nat) (a : nat -> nat -> R) (b c : nat -> R) (f : R -> list R -> list R) (t h : R) (y : list R).

  (** the step misses the Runge-Kutta step by the weighted defects *)
  Lemma step_defect Y d p : stage_weights s a b d ->
    weighted n s d Y p - h * Rsum s (fun j => b j * ventry (stage_slope n c f t h y Y j) p) = Rsum s (fun i => d i * stage_defect n s a c f t h y Y i p).
  Proof.
    intros Hw. unfold stage_defect, weighted.
    rewrite (Rsum_ext s (fun i => d i * (ventry Y (n * i + p) - h * Rsum s (fun j => a i j * ventry (stage_slope n c f t h y Y j) p))) (fun i => d i * ventry Y (n * i + p) - h * Rsum s (fun j => a i j * d i * ventry (stage_slope n c f t h y Y j) p))).
    - rewrite Rsum_minus, Rsum_scal, Rsum_swap. do 2 f_equal. apply Rsum_ext. intros j Hj. rewrite Rsum_scal_r, Hw by exact Hj. reflexivity.
    - intros i Hi. rewrite Rmult_minus_distr_l. f_equal. rewrite <- Rmult_assoc, (Rmult_comm (d i) h), Rmult_assoc. f_equal. rewrite <- Rsum_scal. apply Rsum_ext. intros. ring.
  Qed.
  Lemma zero_defect_step Y d yn : stage_weights s a b d -> (forall i p, (i < s)%nat -> (p < n)%nat -> stage_defect n s a c f t h y Y i p = 0) ->
    (forall j, (j < s)%nat -> length (stage_slope n c f t h y Y j) = n) ->
    length yn = n -> (forall p, (p < n)%nat -> ventry yn p = ventry y p + weighted n s d Y p) ->
    rk_step n s a b c f t h y yn (map (stage_slope n c f t h y Y) (seq 0 s)).
  Proof.
    intros Hw Hz Hl Ln Hyn. split; [rewrite map_length, seq_length; reflexivity|].
    assert (Hk : forall i, (i < s)%nat -> nth i (map (stage_slope n c f t h y Y) (seq 0 s)) [] = stage_slope n c f t h y Y i).
    { intros i Hi. rewrite (nth_indep _ [] (stage_slope n c f t h y Y 0)) by (rewrite map_length, seq_length; exact Hi). rewrite map_nth, seq_nth by exact Hi. reflexivity. }
    split.
    - intros i Hi. rewrite Hk by exact Hi. split; [apply Hl, Hi|]. unfold stage_slope at 1. f_equal. unfold stage_point. apply vec_ext; [rewrite !vtab_length; reflexivity|]. intros q Hq. rewrite vtab_length in Hq.
      rewrite !ventry_vt by exact Hq. f_equal. specialize (Hz i q Hi Hq). unfold stage_defect in Hz.
      rewrite (Rsum_ext s _ (fun j => a i j * ventry (stage_slope n c f t h y Y j) q)) by (intros j Hj; rewrite Hk by exact Hj; reflexivity). lra.
    - apply vec_ext; [rewrite vtab_length; exact Ln|]. intros q Hq. rewrite Ln in Hq. rewrite ventry_vt by exact Hq. rewrite Hyn by exact Hq. f_equal.
      pose proof (step_defect Y d q Hw) as E. rewrite (Rsum_0 s (fun i => d i * _)) in E by (intros i Hi; rewrite Hz by assumption; ring).
      rewrite (Rsum_ext s (fun i => b i * ventry (nth i _ []) q) (fun j => b j * ventry (stage_slope n c f t h y Y j) q)) by (intros j Hj; rewrite Hk by exact Hj; reflexivity). lra.
  Qed.

  (** linear invariants of Newton's iteration *)
  Variables (jac : mat R -> Prop) (wt : nat -> R).
  Hypothesis Hwf : forall t y, length y = n -> Rsum n (fun q => wt q * ventry (f t y) q) = 0.
  Hypothesis Hwj : forall J, jac J -> forall q, (q < n)%nat -> Rsum n (fun p => wt p * mentry J p q) = 0.
  Hypothesis Hinv : forall J M, jac J -> is_stage_matrix n s a h J M -> mat_wf M -> invertible M.
  Lemma newton_invariant J Y Y' e : jac J -> stage_newton n s a c f t h y J false Y Y' e ->
    (forall i, (i < s)%nat -> Rsum n (fun p => wt p * ventry Y (n * i + p)) = 0) -> forall i, (i < s)%nat -> Rsum n (fun p => wt p * ventry Y' (n * i + p)) = 0.
  Proof.
    intros HJ (L1 & L2 & L3 & HY & M & HM & HMw & Hsol) Hz i Hi. specialize (Hsol (Hinv _ _ HJ HM HMw)). destruct HM as (_ & _ & HM).
    rewrite (Rsum_ext n _ (fun p => wt p * ventry Y (n * i + p) + wt p * ventry e (n * i + p))) by (intros p _; rewrite HY; ring). rewrite Rsum_plus, Hz, Rplus_0_l by exact Hi.
    assert (E1 : Rsum n (fun p => wt p * Rsum (n * s) (fun k => mentry M (n * i + p) k * ventry e k)) = Rsum n (fun p => wt p * ventry e (n * i + p))).
    { rewrite (Rsum_ext n (fun p => wt p * Rsum (n * s) _) (fun p => wt p * ventry e (n * i + p) - h * Rsum s (fun j => a i j * Rsum n (fun q => wt p * mentry J p q * ventry e (n * j + q))))).
      - rewrite Rsum_minus, Rsum_scal, Rsum_swap. rewrite (Rsum_0 s); [ring|]. intros j Hj. rewrite Rsum_scal, Rsum_swap. rewrite (Rsum_0 n); [ring|]. intros q Hq.
        rewrite Rsum_scal_r, Hwj by assumption. ring.
      - intros p Hp. rewrite Rsum_blocks. rewrite (Rsum_ext s _ (fun j => delta i j * ventry e (n * j + p) - h * (a i j * Rsum n (fun q => mentry J p q * ventry e (n * j + q))))).
        + rewrite Rsum_minus, Rsum_scal, (delta_sum s i (fun j => ventry e (n * j + p)) Hi). rewrite Rmult_minus_distr_l. f_equal. rewrite <- Rmult_assoc, (Rmult_comm (wt p) h), Rmult_assoc. f_equal.
          rewrite <- Rsum_scal. apply Rsum_ext. intros j Hj. rewrite <- Rmult_assoc, (Rmult_comm (wt p)), Rmult_assoc. f_equal. rewrite <- Rsum_scal. apply Rsum_ext. intros. ring.
        + intros j Hj. rewrite (Rsum_ext n _ (fun q => delta p q * (delta i j * ventry e (n * j + q)) - h * a i j * (mentry J p q * ventry e (n * j + q)))).
          * rewrite Rsum_minus, Rsum_scal, (delta_sum n p (fun q => delta i j * ventry e (n * j + q)) Hp). ring.
          * intros q Hq. rewrite HM by assumption. ring. }
    rewrite <- E1. rewrite (Rsum_ext n _ (fun p => - (wt p * stage_defect n s a c f t h y Y i p))) by (intros p Hp; rewrite Hsol by assumption; ring).
    rewrite Rsum_opp. unfold stage_defect.
    rewrite (Rsum_ext n _ (fun p => wt p * ventry Y (n * i + p) - h * Rsum s (fun j => a i j * (wt p * ventry (stage_slope n c f t h y Y j) p)))).
    - rewrite Rsum_minus, Hz, Rsum_scal, Rsum_swap by exact Hi. rewrite (Rsum_0 s); [ring|]. intros j Hj. rewrite Rsum_scal. unfold stage_slope. rewrite Hwf by (unfold stage_point; apply vtab_length). ring.
    - intros p Hp. rewrite Rmult_minus_distr_l. f_equal. rewrite <- Rmult_assoc, (Rmult_comm (wt p) h), Rmult_assoc. f_equal. rewrite <- Rsum_scal. apply Rsum_ext. intros. ring.
  Qed.
  Lemma reaches_invariant Y : newton_reaches n s a c f t h y jac false Y -> forall i, (i < s)%nat -> Rsum n (fun p => wt p * ventry Y (n * i + p)) = 0.
  Proof.
    induction 1 as [|Y Y' J d HY IH HJ HN]; intros i Hi.
    - apply Rsum_0. intros p Hp. unfold vzeros, ventry. rewrite nth_repeat. simpl. unfold Rlit. simpl. ring.
    - exact (newton_invariant _ _ _ _ HJ HN IH i Hi).
  Qed.
  Lemma weighted_invariant Y d : (forall i, (i < s)%nat -> Rsum n (fun p => wt p * ventry Y (n * i + p)) = 0) -> Rsum n (fun p => wt p * weighted n s d Y p) = 0.
  Proof.
    intros Hz. unfold weighted. rewrite (Rsum_ext n _ (fun p => Rsum s (fun i => d i * (wt p * ventry Y (n * i + p))))).
    - rewrite Rsum_swap. apply Rsum_0. intros i Hi. rewrite Rsum_scal, Hz by exact Hi. ring.
    - intros p Hp. rewrite <- Rsum_scal. apply Rsum_ext. intros. ring.
  Qed.
End Step.

(** with a zero Jacobian the matrix is the identity and one iteration for a right-hand side that does not depend on y is exact *)
Lemma zero_jacobian_matrix n s a h J M : (forall p q, (p < n)%nat -> (q < n)%nat -> mentry J p q = 0) -> is_stage_matrix n s a h J M -> (forall k l, (k < n * s)%nat -> (l < n * s)%nat -> mentry M k l = delta k l) /\ invertible M.
Proof.
  intros HJ (M1 & M2 & HM).
  assert (E : forall k l, (k < n * s)%nat -> (l < n * s)%nat -> mentry M k l = delta k l).
  { intros k l Hk Hl. assert (Hn : n <> 0%nat) by nia.
    pose proof (Nat.mod_upper_bound k n Hn). pose proof (Nat.mod_upper_bound l n Hn). pose proof (Nat.div_mod k n Hn) as Ek. pose proof (Nat.div_mod l n Hn) as El.
    rewrite Ek, El at 1. rewrite HM by (try assumption; apply Nat.div_lt_upper_bound; assumption). rewrite HJ by assumption. unfold delta.
    destruct (Nat.eq_dec (k / n) (l / n)) as [E1|E1], (Nat.eq_dec (k mod n) (l mod n)) as [E2|E2], (Nat.eq_dec k l) as [E3|E3]; subst; try lra; try congruence. }
  split; [exact E|]. exists M. split; [congruence|]. split; [reflexivity|]. split; [reflexivity|]. rewrite M1. intros i j Hi Hj.
  rewrite !(Rsum_ext (n * s) _ (fun k => delta i k * delta k j)) by (intros k Hk; rewrite !E by assumption; reflexivity). rewrite (delta_sum (n * s) i (fun k => delta k j) Hi). auto.
Qed.
Lemma zero_jacobian_stages n s a c f t h y J Y Y' e : (forall p q, (p < n)%nat -> (q < n)%nat -> mentry J p q = 0) -> stage_newton n s a c f t h y J false Y Y' e ->
  (forall t y1 y2, length y1 = n -> length y2 = n -> f t y1 = f t y2) ->
  forall i p, (i < s)%nat -> (p < n)%nat -> stage_defect n s a c f t h y Y' i p = 0.
Proof.
  intros HJ (L1 & L2 & L3 & HY & M & HM & HMw & Hsol) Hf i p Hi Hp. destruct (zero_jacobian_matrix _ _ _ _ _ _ HJ HM) as [E Hinv]. specialize (Hsol Hinv i p Hi Hp).
  rewrite (Rsum_ext (n * s) _ (fun k => delta (n * i + p) k * ventry e k)) in Hsol by (intros k Hk; rewrite E by nia; reflexivity).
  rewrite (delta_sum (n * s) (n * i + p) (ventry e)) in Hsol by nia.
  unfold stage_defect in * . rewrite HY, Hsol, Rmult_1_l.
  rewrite (Rsum_ext s (fun j => a i j * ventry (stage_slope n c f t h y Y' j) p) (fun j => a i j * ventry (stage_slope n c f t h y Y j) p)); [ring|]. intros j Hj. do 2 f_equal. unfold stage_slope, stage_point. apply Hf; apply vtab_length.
Qed.

(** quadrature with slightly wrong moments *)
Lemma Rsum_abs_le n f g : (forall i, (i < n)%nat -> Rabs (f i) <= g i) -> Rabs (Rsum n f) <= Rsum n g.
Proof.
  induction n as [|n IH]; intros Hi; [simpl; rewrite Rabs_R0; lra|]. cbn [Rsum]. eapply Rle_trans; [apply Rabs_triang|].
  apply Rplus_le_compat; [apply IH; intros; apply Hi; lia|apply Hi; lia].
Qed.
Lemma C_nonneg j k : 0 <= Binomial.C j k.
Proof. unfold Binomial.C. apply Rmult_le_pos; [apply pos_INR|]. left. apply Rinv_0_lt_compat. apply Rmult_lt_0_compat; apply INR_fact_lt_0. Qed.
Lemma quad_diff s b c t h j : h * Rsum s (fun i => b i * (t + c i * h) ^ j) - ((t + h) ^ (j + 1) - t ^ (j + 1)) / INR (j + 1) =
  Rsum (S j) (fun k => Binomial.C j k * t ^ (j - k) * h ^ k * h * (Rsum s (fun i => b i * c i ^ k) - 1 / INR (k + 1))).
Proof.
  assert (Hj1 : INR (S j) <> 0) by (apply not_0_INR; lia).
  rewrite (Rsum_ext (S j) (fun k => _ * (_ - _)) (fun k => h * (Binomial.C j k * t ^ (j - k) * h ^ k * Rsum s (fun i => b i * c i ^ k)) - Binomial.C j k * t ^ (j - k) * h ^ k * h * (1 / INR (k + 1)))) by (intros; ring).
  rewrite Rsum_minus, Rsum_scal. f_equal; [f_equal|f_equal].
  - rewrite (Rsum_ext s _ (fun i => Rsum (S j) (fun k => Binomial.C j k * t ^ (j - k) * h ^ k * (b i * c i ^ k)))).
    + rewrite Rsum_swap. apply Rsum_ext. intros k Hk. rewrite Rsum_scal. reflexivity.
    + intros i Hi. rewrite (Rplus_comm t), binomial, sum_f_R0_Rsum, <- Rsum_scal. apply Rsum_ext. intros k Hk. rewrite Rpow_mult_distr. ring.
  - rewrite (Rplus_comm t h), binomial, sum_f_R0_Rsum. replace (S (j + 1)) with (S (S j)) by lia. rewrite (Rsum_shift (S j)).
    replace (Binomial.C (j + 1) 0 * h ^ 0 * t ^ (j + 1 - 0)) with (t ^ (j + 1)).
    2:{ rewrite Nat.sub_0_r. unfold Binomial.C. rewrite Nat.sub_0_r. change (fact 0) with 1%nat. change (INR 1) with 1. change (h ^ 0) with 1. field. apply INR_fact_neq_0. }
    replace (t ^ (j + 1) + Rsum (S j) (fun i => Binomial.C (j + 1) (S i) * h ^ S i * t ^ (j + 1 - S i)) - t ^ (j + 1))
       with (Rsum (S j) (fun i => Binomial.C (j + 1) (S i) * h ^ S i * t ^ (j + 1 - S i))) by ring.
    match goal with |- Rsum ?n ?f / ?d = _ => change (Rsum n f / d) with (Rsum n f * / d) end. rewrite <- Rsum_scal_r. apply Rsum_ext. intros k Hk.
    rewrite !Nat.add_1_r, C_shift by lia. replace (S j - S k)%nat with (j - k)%nat by lia.
    assert (INR (S k) <> 0) by (apply not_0_INR; lia). cbn [pow]. field. auto.
Qed.
Lemma quad_shift_within eps s b c p t h : B_within eps s b c p -> forall j, (j < p)%nat ->
  Rabs (h * Rsum s (fun i => b i * (t + c i * h) ^ j) - ((t + h) ^ (j + 1) - t ^ (j + 1)) / INR (j + 1)) <= eps * Rabs h * (Rabs t + Rabs h) ^ j.
Proof.
  intros HB j Hj. rewrite quad_diff.
  eapply Rle_trans; [apply (Rsum_abs_le _ _ (fun k => eps * Rabs h * (Binomial.C j k * Rabs h ^ k * Rabs t ^ (j - k))))|].
  - intros k Hk. rewrite !Rabs_mult, (Rabs_pos_eq (Binomial.C j k)) by apply C_nonneg. rewrite <- !RPow_abs. specialize (HB (k + 1)%nat ltac:(lia)). replace (k + 1 - 1)%nat with k in HB by lia.
    set (e := Rabs (Rsum s (fun i => b i * c i ^ k) - 1 / INR (k + 1))) in * .
    replace (eps * Rabs h * (Binomial.C j k * Rabs h ^ k * Rabs t ^ (j - k))) with (Binomial.C j k * Rabs t ^ (j - k) * Rabs h ^ k * Rabs h * eps) by ring.
    apply Rmult_le_compat_l; [|exact HB]. apply Rmult_le_pos; [apply Rmult_le_pos; [apply Rmult_le_pos; [apply C_nonneg|apply pow_le, Rabs_pos]|apply pow_le, Rabs_pos]|apply Rabs_pos].
  - rewrite Rsum_scal. right. f_equal. rewrite (Rplus_comm (Rabs t)), binomial, sum_f_R0_Rsum. reflexivity.
Qed.
Lemma B_exact s b c p : (forall k, (k < p)%nat -> Rsum s (fun i => b i * c i ^ k) = 1 / INR (k + 1)) -> B_within 0 s b c p.
Proof. intros Hq k Hk. rewrite Hq by lia. replace (k - 1 + 1)%nat with k by lia. rewrite Rminus_diag_eq, Rabs_R0 by reflexivity. lra. Qed.
(** a Runge-Kutta step for a polynomial right-hand side *)
Lemma rk_poly_within eps n s a b c f t h y y' k p d cf : 0 <= h -> rk_step n s a b c f t h y y' k -> B_within eps s b c p -> (d <= p)%nat ->
  (forall t y q, length y = n -> (q < n)%nat -> ventry (f t y) q = poly d (cf q) t) ->
  forall q, (q < n)%nat -> Rabs (ventry y' q - ventry y q - poly_integral d (cf q) t (t + h)) <= eps * h * Rsum d (fun j => Rabs (cf q j) * (Rabs t + h) ^ j).
Proof.
  intros Hh (Lk & Hk & Hy) HB Hd Hf q Hqn. rewrite Hy, ventry_vt by exact Hqn.
  rewrite (Rsum_ext s _ (fun i => Rsum d (fun j => cf q j * (b i * (t + c i * h) ^ j)))).
  2:{ intros i Hi. destruct (Hk i Hi) as [_ ->]. rewrite Hf by (apply vtab_length || exact Hqn). unfold poly. rewrite <- Rsum_scal. apply Rsum_ext. intros. ring. }
  rewrite Rsum_swap, <- Rsum_scal. unfold poly_integral.
  replace (ventry y q + Rsum d (fun i => h * Rsum s (fun i0 => cf q i * (b i0 * (t + c i0 * h) ^ i))) - ventry y q - Rsum d (fun j => cf q j * (((t + h) ^ (j + 1) - t ^ (j + 1)) / INR (j + 1))))
    with (Rsum d (fun j => cf q j * (h * Rsum s (fun i => b i * (t + c i * h) ^ j) - ((t + h) ^ (j + 1) - t ^ (j + 1)) / INR (j + 1)))).
  2:{ rewrite (Rsum_ext d (fun i => h * Rsum s (fun i0 => cf q i * (b i0 * (t + c i0 * h) ^ i))) (fun j => cf q j * (h * Rsum s (fun i => b i * (t + c i * h) ^ j)))).
      - rewrite (Rsum_ext d _ (fun j => cf q j * (h * Rsum s (fun i => b i * (t + c i * h) ^ j)) - cf q j * (((t + h) ^ (j + 1) - t ^ (j + 1)) / INR (j + 1)))) by (intros; ring). rewrite Rsum_minus. ring.
      - intros j Hj. rewrite Rsum_scal. ring. }
  rewrite <- Rsum_scal. apply Rsum_abs_le. intros j Hj. rewrite Rabs_mult. pose proof (quad_shift_within eps s b c p t h HB j ltac:(lia)) as Hs. rewrite (Rabs_pos_eq h Hh) in Hs.
  replace (eps * h * (Rabs (cf q j) * (Rabs t + h) ^ j)) with (Rabs (cf q j) * (eps * h * (Rabs t + h) ^ j)) by ring. apply Rmult_le_compat_l; [apply Rabs_pos|exact Hs].
Qed.

(** ** Runs *)
Section Runs.
  Context {LA : LinAlg R} {HP : ExactProducts LA} {HX : ExactSolve LA} {HLU : ExactLU LA} {HI : ExactInverse LA} {HE : Env R} {St : Type}.
  Local Notation W := (world R St).
  Variables (F : functor R St) (f : R -> list R -> list R).
  Hypothesis Hf : computes F f.
  Hypothesis HJ : jac_matrices F.
  Variables (fuel : nat) (t0 t1 : R) (y0 : list R) (opts : irk_options R) (oo : output_options) (m : Z) (dt : R) (w w' : W) (sol : irk_output R).
  Hypothesis Hstart : ndebug = false \/ (t0 < t1 /\ 0 < dt).
  Hypothesis Hrun : irk_odeint fuel F t0 t1 y0 opts oo m dt w = (w', Ok sol).

  Lemma irk_accepted_steps : exists sc nopts atts, irk_get_coefficients m = Ok sc /\ io_newton opts = Some nopts /\ records t0 y0 oo atts sol /\ ichained t0 y0 atts /\
    forall x, In x (ended Accepted atts) -> length (ia_y x) = length y0 /\ ia_err x <= 1 /\
    let n := length y0 in let s := length (sc_b sc) in let a := mfun (sc_A sc) in let b := vfun (sc_b sc) in let c := vfun (sc_c sc) in
    let t := ia_t x in let h := ia_dt x in let y := ia_y x in
    exists Y d Y0 J e, length Y = (s * n)%nat /\ stage_weights s a b d /\
      length (ia_yn x) = n /\ (forall p, (p < n)%nat -> ventry (ia_yn x) p = ventry y p + weighted n s d Y p) /\
      jac_answers F t y J /\ stage_newton n s a c f t h y J false Y0 Y e /\
      (defect_norm2 n s a c f t h y Y < o_tol nopts * o_tol nopts \/ Rsum (length e) (fun i => ventry e i * ventry e i) < o_dx_delta nopts * o_dx_delta nopts) /\
      (forall p, (p < n)%nat -> ventry (ia_yn x) p - (ventry y p + h * Rsum s (fun j => b j * ventry (stage_slope n c f t h y Y j) p)) =
         Rsum s (fun i => d i * stage_defect n s a c f t h y Y i p)) /\
      (defect_norm2 n s a c f t h y Y = 0 -> rk_step n s a b c f t h y (ia_yn x) (map (stage_slope n c f t h y Y) (seq 0 s))).
  Proof.
    destruct (irk_run_R F f Hf HJ fuel t0 t1 y0 opts oo m dt Hstart _ _ _ Hrun) as (sc & nopts & atts & M1 & M2 & M3 & M3o & M3b & M4 & M5 & M6 & M7 & M8 & _).
    exists sc, nopts, atts. repeat (split; [assumption|]). intros x Hx. apply ended_in in Hx. destruct Hx as [Hx Ho]. rewrite Forall_forall in M8. destruct (M8 x Hx) as (N1 & N2 & N3 & N4).
    destruct (N4 ltac:(congruence)) as (_ & N5 & Y & J & d & d2 & [S1 S2 S3 (Y0 & J0 & e & S4 & S5 & S6 & S7) S8 S9 S10 [S11 S12] S13 S14]). rewrite N3 in * . split; [reflexivity|]. split; [apply N5, Ho|]. cbv zeta.
    exists Y, d, Y0, J0, e. repeat (split; [assumption|]). split.
    - intros p Hp. rewrite S12 by exact Hp. rewrite <- (step_defect _ _ _ (vfun (sc_b sc))) by assumption. lra.
    - intros Hz. apply zero_defect_step with (d := d); try assumption. intros i p Hi Hp. unfold defect_norm2 in Hz.
      assert (Hsq : forall k g, (forall i, (i < k)%nat -> 0 <= g i) -> Rsum k g = 0 -> forall i, (i < k)%nat -> g i = 0).
      { clear. induction k as [|k IH]; intros g Hg Hs i Hi; [lia|]. cbn [Rsum] in Hs. assert (0 <= Rsum k g) by (clear - Hg; induction k as [|k IH]; [simpl; lra|]; cbn [Rsum]; assert (0 <= Rsum k g) by (apply IH; intros; apply Hg; lia); pose proof (Hg k ltac:(lia)); lra).
        pose proof (Hg k ltac:(lia)). destruct (Nat.eq_dec i k) as [->|]; [lra|]. apply IH; [intros; apply Hg; lia|lra|lia]. }
      assert (Hp2 : forall k g, (forall i, (i < k)%nat -> 0 <= g i) -> 0 <= Rsum k g).
      { clear. induction k as [|k IH]; intros g Hg; [simpl; lra|]. cbn [Rsum]. pose proof (Hg k ltac:(lia)). assert (0 <= Rsum k g) by (apply IH; intros; apply Hg; lia). lra. }
      assert (Hi2 : Rsum (length y0) (fun p => stage_defect (length y0) (length (sc_b sc)) (mfun (sc_A sc)) (vfun (sc_c sc)) f (ia_t x) (ia_dt x) (ia_y x) Y i p * stage_defect (length y0) (length (sc_b sc)) (mfun (sc_A sc)) (vfun (sc_c sc)) f (ia_t x) (ia_dt x) (ia_y x) Y i p) = 0).
      { refine (Hsq (length (sc_b sc)) (fun i => Rsum (length y0) (fun p => _ i p * _ i p)) _ Hz i Hi). intros k _. apply Hp2. intros q _. apply Rle_0_sqr. }
      pose proof (Hsq _ _ (fun q _ => Rle_0_sqr _) Hi2 p Hp) as E0. cbv beta in E0. apply Rsqr_0_uniq. exact E0.
  Qed.

  Lemma irk_invariant wt :
    (forall t y, length y = length y0 -> Rsum (length y0) (fun q => wt q * ventry (f t y) q) = 0) ->
    (forall t y J, jac_answers F t y J -> forall q, (q < length y0)%nat -> Rsum (length y0) (fun p => wt p * mentry J p q) = 0) ->
    (forall sc, irk_get_coefficients m = Ok sc -> stage_matrices_invertible F (length y0) (length (sc_b sc)) (mfun (sc_A sc)) (t1 - t0)) ->
    forall k, (k < length (io_y_vals sol))%nat ->
    Rsum (length y0) (fun q => wt q * ventry (nth k (io_y_vals sol) []) q) = Rsum (length y0) (fun q => wt q * ventry y0 q).
  Proof.
    intros Hw1 Hw2 Hinv k Hk.
    destruct (irk_run_R F f Hf HJ fuel t0 t1 y0 opts oo m dt Hstart _ _ _ Hrun) as (sc & nopts & atts & M1 & M2 & M3 & M3o & M3b & M4 & M5 & M6 & M7 & M8 & _).
    set (P := fun (_ : R) (y : list R) => Rsum (length y0) (fun q => wt q * ventry y q) = Rsum (length y0) (fun q => wt q * ventry y0 q)).
    destruct (chain_inv P t0 y0 atts M7) as (_ & C1 & _); [reflexivity| |].
    - intros x Hx Ho IH. unfold P in * . rewrite Forall_forall in M8. destruct (M8 x Hx) as (N1 & N2 & N3 & N4).
      destruct (N4 ltac:(congruence)) as (_ & _ & Y & J & d & d2 & [S1 S2 S3 (Y0 & J0 & e & S4 & S5 & S6 & S7) S8 S9 S10 [S11 S12] S13 S14]). rewrite N3 in * . rewrite <- IH.
      rewrite (Rsum_ext _ _ (fun q => wt q * ventry (ia_y x) q + wt q * weighted (length y0) (length (sc_b sc)) d Y q)) by (intros q Hq; rewrite S12 by exact Hq; ring).
      rewrite Rsum_plus. rewrite weighted_invariant; [lra|].
      apply (reaches_invariant (length y0) (length (sc_b sc)) (mfun (sc_A sc)) (vfun (sc_c sc)) f (ia_t x) (ia_dt x) (ia_y x) (jac_answers F (ia_t x) (ia_y x)) wt Hw1 (Hw2 _ _)).
      + intros J1 M HJ1 HM HMw. apply (Hinv sc M1 (ia_t x) (ia_y x) J1 (ia_dt x) M); auto; lra.
      + eapply reach_next; [exact S4|exact S5|exact S6].
    - assert (El : length (io_y_vals sol) = length (io_t_vals sol)) by (destruct M6 as (R1 & R2 & _); rewrite R1, R2; simpl; rewrite !map_length; reflexivity).
      exact (records_inv P t0 y0 oo atts sol 0 M6 eq_refl C1 k ltac:(lia)).
  Qed.

  (** quadrature problems *)
  Lemma irk_quadrature eps p d cf : (forall sc, irk_get_coefficients m = Ok sc -> B_within eps (length (sc_b sc)) (vfun (sc_b sc)) (vfun (sc_c sc)) p) -> (d <= p)%nat -> 0 <= eps ->
    (forall t y, length y = length y0 -> f t y = vtab (length y0) (fun q => poly d (cf q) t)) ->
    (forall t y J, jac_answers F t y J -> forall i j, (i < length y0)%nat -> (j < length y0)%nat -> mentry J i j = 0) ->
    forall k q, (k < length (io_t_vals sol))%nat -> (q < length y0)%nat ->
    Rabs (ventry (nth k (io_y_vals sol) []) q - (ventry y0 q + poly_integral d (cf q) t0 (nth k (io_t_vals sol) 0))) <=
      eps * (nth k (io_t_vals sol) 0 - t0) * Rsum d (fun j => Rabs (cf q j) * (Rabs t0 + (t1 - t0)) ^ j).
  Proof.
    intros HB Hd Heps Hp Hz k q Hk Hq.
    destruct (irk_run_R F f Hf HJ fuel t0 t1 y0 opts oo m dt Hstart _ _ _ Hrun) as (sc & nopts & atts & M1 & M2 & M3 & M3o & M3b & M4 & M5 & M6 & M7 & M8 & _).
    specialize (HB sc M1).
    set (B := Rsum d (fun j => Rabs (cf q j) * (Rabs t0 + (t1 - t0)) ^ j)).
    set (P := fun (t : R) (y : list R) => t0 <= t /\ Rabs (ventry y q - (ventry y0 q + poly_integral d (cf q) t0 t)) <= eps * (t - t0) * B).
    assert (HP0 : P t0 y0).
    { unfold P. split; [lra|]. assert (E : poly_integral d (cf q) t0 t0 = 0) by (unfold poly_integral; apply Rsum_0; intros; unfold Rdiv; ring). rewrite E.
      replace (ventry y0 q - (ventry y0 q + 0)) with 0 by ring. rewrite Rabs_R0. right. ring. }
    destruct (chain_inv P t0 y0 atts M7 HP0) as (_ & C1 & _).
    - intros x Hx Ho [It IH]. unfold P in * . rewrite Forall_forall in M8. destruct (M8 x Hx) as (N1 & N2 & N3 & N4).
      destruct (N4 ltac:(congruence)) as (_ & _ & Y & J & dd & d2 & [S1 S2 S3 (Y0 & J0 & e & S4 & S5 & S6 & S7) S8 S9 S10 [S11 S12] S13 S14]). rewrite N3 in * .
      assert (Hst : rk_step (length y0) (length (sc_b sc)) (mfun (sc_A sc)) (vfun (sc_b sc)) (vfun (sc_c sc)) f (ia_t x) (ia_dt x) (ia_y x) (ia_yn x)
                (map (stage_slope (length y0) (vfun (sc_c sc)) f (ia_t x) (ia_dt x) (ia_y x) Y) (seq 0 (length (sc_b sc))))).
      { apply zero_defect_step with (d := dd); try assumption. apply (zero_jacobian_stages _ _ _ _ _ _ _ _ J0 Y0 Y e); [exact (Hz _ _ _ S5)|exact S6|]. intros t y1 y2 L1 L2. rewrite !Hp by assumption. reflexivity. }
      assert (Hdt : 0 <= ia_dt x) by lra. pose proof (rk_poly_within eps _ _ _ _ _ _ _ _ _ _ _ p d cf Hdt Hst HB Hd ltac:(intros t y i Ly Hi; rewrite Hp by exact Ly; apply ventry_vt, Hi) q Hq) as Hb.
      unfold ia_end. simpl. split; [lra|]. rewrite <- (poly_integral_chain d (cf q) t0 (ia_t x) (ia_t x + ia_dt x)).
      set (I1 := poly_integral d (cf q) t0 (ia_t x)) in * . set (I2 := poly_integral d (cf q) (ia_t x) (ia_t x + ia_dt x)) in * .
      replace (ventry (ia_yn x) q - (ventry y0 q + (I1 + I2))) with ((ventry (ia_yn x) q - ventry (ia_y x) q - I2) + (ventry (ia_y x) q - (ventry y0 q + I1))) by ring.
      eapply Rle_trans; [apply Rabs_triang|]. replace (eps * (ia_t x + ia_dt x - t0) * B) with (eps * ia_dt x * B + eps * (ia_t x - t0) * B) by ring. apply Rplus_le_compat; [|exact IH].
      eapply Rle_trans; [exact Hb|]. apply Rmult_le_compat_l; [apply Rmult_le_pos; lra|].
      assert (Hm : forall k g1 g2, (forall i, (i < k)%nat -> g1 i <= g2 i) -> Rsum k g1 <= Rsum k g2) by (clear; induction k as [|k IHk]; intros g1 g2 Hg; [simpl; lra|]; cbn [Rsum]; apply Rplus_le_compat; [apply IHk; intros; apply Hg; lia|apply Hg; lia]).
      apply Hm. intros j Hj. apply Rmult_le_compat_l; [apply Rabs_pos|]. apply pow_incr. pose proof (Rabs_pos (ia_t x)). split; [lra|].
      assert (Rabs (ia_t x) <= Rabs t0 + (ia_t x - t0)).
      { replace (ia_t x) with (t0 + (ia_t x - t0)) at 1 by ring. eapply Rle_trans; [apply Rabs_triang|]. rewrite (Rabs_pos_eq (ia_t x - t0)) by lra. lra. }
      lra.
    - exact (proj2 (records_inv P t0 y0 oo atts sol 0 M6 HP0 C1 k Hk)).
  Qed.
  Lemma irk_poly_exact p d cf : In (m, p) implicit_orders -> (d <= p)%nat ->
    (forall t y, length y = length y0 -> f t y = vtab (length y0) (fun q => poly d (cf q) t)) ->
    (forall t y J, jac_answers F t y J -> forall i j, (i < length y0)%nat -> (j < length y0)%nat -> mentry J i j = 0) ->
    forall k q, (k < length (io_t_vals sol))%nat -> (q < length y0)%nat ->
    ventry (nth k (io_y_vals sol) []) q = ventry y0 q + poly_integral d (cf q) t0 (nth k (io_t_vals sol) 0).
  Proof.
    intros Hm Hd Hp Hz k q Hk Hq.
    assert (Hb : Rabs (ventry (nth k (io_y_vals sol) []) q - (ventry y0 q + poly_integral d (cf q) t0 (nth k (io_t_vals sol) 0))) <=
      0 * (nth k (io_t_vals sol) 0 - t0) * Rsum d (fun j => Rabs (cf q j) * (Rabs t0 + (t1 - t0)) ^ j)).
    { apply (irk_quadrature 0 p); try assumption; [|lra]. intros sc Hsc. destruct (irk_orders_final m p Hm) as (sc' & Hsc' & _ & Ho & _). rewrite Hsc in Hsc'. injection Hsc' as <-.
      apply B_exact. apply (quadrature _ _ _ _ p Ho). assert (Hi : In m implicit_closed_form) by (clear - Hm; simpl in * ; intuition congruence).
      assert (Hi2 : In m implicit_methods) by (clear - Hi; simpl in * ; tauto). exact (proj2 (proj2 (irk_rows m sc Hi2 Hsc)) Hi). }
    rewrite !Rmult_0_l in Hb. pose proof (Rabs_pos (ventry (nth k (io_y_vals sol) []) q - (ventry y0 q + poly_integral d (cf q) t0 (nth k (io_t_vals sol) 0)))).
    apply Rminus_diag_uniq. apply Rabs_eq_0 || (destruct (Req_dec (ventry (nth k (io_y_vals sol) []) q - (ventry y0 q + poly_integral d (cf q) t0 (nth k (io_t_vals sol) 0))) 0) as [E|E]; [exact E|]; apply Rabs_no_R0 in E; lra).
  Qed.
  Lemma irk_poly_decimal s p d cf : In (m, s, p) decimal_orders -> (d <= p)%nat ->
    (forall t y, length y = length y0 -> f t y = vtab (length y0) (fun q => poly d (cf q) t)) ->
    (forall t y J, jac_answers F t y J -> forall i j, (i < length y0)%nat -> (j < length y0)%nat -> mentry J i j = 0) ->
    forall k q, (k < length (io_t_vals sol))%nat -> (q < length y0)%nat ->
    Rabs (ventry (nth k (io_y_vals sol) []) q - (ventry y0 q + poly_integral d (cf q) t0 (nth k (io_t_vals sol) 0))) <=
      1 / 10000000000000000 * (nth k (io_t_vals sol) 0 - t0) * Rsum d (fun j => Rabs (cf q j) * (Rabs t0 + (t1 - t0)) ^ j).
  Proof.
    intros Hm Hd Hp Hz k q Hk Hq. apply (irk_quadrature _ p); try assumption; [|lra]. intros sc Hsc. destruct (irk_decimal_final m s p Hm) as (sc' & Hsc' & Ls & HB & _). rewrite Hsc in Hsc'. injection Hsc' as <-. rewrite Ls. exact HB.
  Qed.

  (** the recorded error estimates *)
  Lemma irk_estimates : exists sc atts, irk_get_coefficients m = Ok sc /\ records t0 y0 oo atts sol /\ ichained t0 y0 atts /\
    forall x, In x (ended Accepted atts) ->
    let n := length y0 in let s := length (sc_b sc) in let a := mfun (sc_A sc) in let h := ia_dt x in
    exists Y d d2 J e0 e, stage_weights s a (vfun (sc_b sc)) d /\ stage_weights s a (vfun (sc_b2 sc)) d2 /\ jac_answers F (ia_t x) (ia_y x) J /\
      (forall p, (p < n)%nat -> ventry (ia_yn x) p = ventry (ia_y x) p + weighted n s d Y p) /\
      let diff p := weighted n s d2 Y p - weighted n s d Y p in
      estimate_of n (sc_gamma sc) h J (f (ia_t x) (ia_y x)) diff e0 /\ ia_est x = map (Rmult h) e /\
      (e = e0 \/ estimate_of n (sc_gamma sc) h J (f (ia_t x) (vtab n (fun p => ventry (ia_y x) p + h * ventry e0 p))) diff e) /\
      ia_err x = Rmax (1 / 100000000000000000) (rms_error n (io_abs_tol opts) (io_rel_tol opts) (ia_y x) (ia_yn x) (map (Rmult h) e)).
  Proof.
    destruct (irk_run_R F f Hf HJ fuel t0 t1 y0 opts oo m dt Hstart _ _ _ Hrun) as (sc & nopts & atts & M1 & M2 & M3 & M3o & M3b & M4 & M5 & M6 & M7 & M8 & _).
    exists sc, atts. repeat (split; [assumption|]). intros x Hx. apply ended_in in Hx. destruct Hx as [Hx Ho]. rewrite Forall_forall in M8. destruct (M8 x Hx) as (N1 & N2 & N3 & N4).
    destruct (N4 ltac:(congruence)) as (_ & N5 & Y & J & d & d2 & [S1 S2 S3 _ S8 S9 S10 [S11 S12] (e0 & e & S13 & S13b & S13c) S14]). rewrite N3 in * . cbv zeta.
    exists Y, d, d2, J, e0, e. repeat (split; [assumption|]). rewrite <- S13b. exact S14.
  Qed.

  (** the step size controller *)
  Lemma irk_controller : exists atts, records t0 y0 oo atts sol /\ ichained t0 y0 atts /\
    Forall (fun x => 0 < ia_dt x <= t1 - ia_t x) atts /\
    (forall a, nth_error atts 0 = Some a -> ia_dt a = Rmin dt (t1 - t0)) /\
    consecutive (fun a b =>
      match ia_out a with
      | NewtonFailed => ia_dt b = Rmin (7 / 10 * ia_dt a) (t1 - ia_t b)
      | TooInaccurate => ia_dt b <= 9 / 10 * ia_dt a /\ (0 < io_max_dt opts -> ia_dt b <= io_max_dt opts)
      | Accepted => ia_dt b <= 72 / 10 * ia_dt a /\ (0 < io_max_dt opts -> ia_dt b <= io_max_dt opts)
      end) atts.
  Proof.
    destruct (irk_run_R F f Hf HJ fuel t0 t1 y0 opts oo m dt Hstart _ _ _ Hrun) as (sc & nopts & atts & M1 & M2 & M3 & M3o & M3b & M4 & M5 & M6 & M7 & M8 & M9 & M10 & _).
    exists atts. split; [exact M6|]. split; [exact M7|]. split; [eapply Forall_impl; [|exact M8]; intros x Hx; apply Hx|]. split; [exact M10|].
    intros k a b Ha Hb. destruct (M9 k a b Ha Hb) as (nd & Z1 & Z2 & Z3). pose proof (Rmin_l nd (t1 - ia_t b)). rewrite <- Z1 in H.
    destruct (ia_out a).
    - rewrite Z1, Z3. reflexivity.
    - destruct Z3 as (_ & _ & Z4 & Z5). specialize (Z5 eq_refl). split; [lra|]. intros Hm. specialize (Z4 Hm). lra.
    - destruct Z3 as (_ & Z3 & Z4 & _). split; [lra|]. intros Hm. specialize (Z4 Hm). lra.
  Qed.
End Runs.
