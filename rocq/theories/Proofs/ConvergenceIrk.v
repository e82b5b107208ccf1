(** Convergence of the implicit integrator. *)
From Coq Require Import Reals Lra Sorting.Sorted.
From Coquelicot Require Import Coquelicot.
From Verif Require Import Model.Base Model.Scalar Model.LinAlg Model.Enums Model.Options Model.Coeffs Model.IrkCoeffs Model.Newton Model.Irk.
From Verif Require Import Spec.Sums Spec.Trees Spec.RkSpec Spec.Observe Spec.NewtonSpec Spec.IrkSpec Spec.IrkRunSpec Spec.Methods Spec.ConvergenceSpec.
From Verif Require Import Proofs.SumsProofs Proofs.RVec Proofs.OrderProofs Proofs.TablesGeneric Proofs.TablesFinal Proofs.Nodes Proofs.IrkRun Proofs.IrkResults Proofs.IrkInverse Proofs.IrkFinal Proofs.IrkExact Proofs.OrderTheory Proofs.Convergence Proofs.Picard Proofs.ConvergenceErk Proofs.Neumann.
Local Open Scope R_scope.

Lemma square_abs x y : x * x <= y * y -> Rabs x <= Rabs y.
Proof. intros H. apply Rsqr_le_abs_0. exact H. Qed.

(** * One step of the stage equations *)
Section Step.
Variables (n s : nat) (a : nat -> nat -> R) (b c : nat -> R) (f : R -> list R -> list R) (L t0 t1 : R).
Hypothesis HL : 0 <= L.
Hypothesis Hlip : lipschitz_in n L t0 t1 f.
Hypothesis Hc : forall i, (i < s)%nat -> 0 <= c i <= 1.
Variables (t h : R) (y : list R).
Hypothesis Hh : 0 <= h <= 1.
Hypothesis Ht : t0 <= t.
Hypothesis Hth : t + h <= t1.
Local Notation asum := (asum s a).

Lemma node_range j : (j < s)%nat -> 0 <= c j * h <= h.
Proof. intros Hj. pose proof (Hc j Hj). split; [apply Rmult_le_pos; lra|]. rewrite <- (Rmult_1_l h) at 2. apply Rmult_le_compat_r; lra. Qed.
Lemma slope_diff Y Y' e j q : (j < s)%nat -> (q < n)%nat -> (forall k, Rabs (ventry Y k - ventry Y' k) <= e) ->
  Rabs (ventry (stage_slope n c f t h y Y j) q - ventry (stage_slope n c f t h y Y' j) q) <= L * e.
Proof.
  intros Hj Hq He. unfold stage_slope. pose proof (node_range j Hj). apply Hlip; [lra|apply vtab_length|apply vtab_length| |exact Hq].
  intros i Hi. unfold stage_point. rewrite !ventry_vt by exact Hi. replace (ventry y i + ventry Y (n * j + i) - (ventry y i + ventry Y' (n * j + i))) with (ventry Y (n * j + i) - ventry Y' (n * j + i)) by ring. apply He.
Qed.
Lemma rows_le g E i : (i < s)%nat -> 0 <= E -> (forall j, (j < s)%nat -> Rabs (g j) <= E) -> Rabs (Rsum s (fun j => a i j * g j)) <= asum * E.
Proof.
  intros Hi HE Hg. eapply Rle_trans; [apply Rsum_abs|]. apply Rle_trans with (Rsum s (fun j => Rabs (a i j) * E)).
  - apply Rsum_le. intros j Hj. rewrite Rabs_mult. apply Rmult_le_compat_l; [apply Rabs_pos|apply Hg, Hj].
  - rewrite Rsum_scal_r. apply Rmult_le_compat_r; [exact HE|]. apply arow. exact Hi.
Qed.

Lemma newton_defect J Y0 Y e tol dx tau : (forall p q, (p < n)%nat -> (q < n)%nat -> Rabs (mentry J p q) <= L) -> h * asum * (INR n * L) < 1 ->
  stage_newton n s a c f t h y J false Y0 Y e ->
  (defect_norm2 n s a c f t h y Y < tol * tol \/ Rsum (length e) (fun i => ventry e i * ventry e i) < dx * dx) -> Rabs tol <= tau -> Rabs dx <= tau ->
  forall i p, (i < s)%nat -> (p < n)%nat -> Rabs (stage_defect n s a c f t h y Y i p) <= (1 + asum * (INR n * L + L)) * tau.
Proof.
  intros HJ Hsm (Y0l & Yl & el & HY & M & HM & HMw & Hsol) Hcr Htol Hdx i p Hi Hp.
  assert (Htau : 0 <= tau) by (pose proof (Rabs_pos tol); lra).
  assert (H0 : 0 <= asum * (INR n * L + L)).
  { apply Rmult_le_pos; [apply asum_pos|]. pose proof (Rmult_le_pos _ _ (pos_INR n) HL). lra. }
  destruct Hcr as [Hcr|Hcr].
  - apply Rle_trans with tau; [|rewrite <- (Rmult_1_l tau) at 1; apply Rmult_le_compat_r; lra]. eapply Rle_trans; [|exact Htol]. apply square_abs. apply Rlt_le. eapply Rle_lt_trans; [|exact Hcr].
    unfold defect_norm2. eapply Rle_trans; [|apply (Rsum_term s (fun i => Rsum n (fun p => stage_defect n s a c f t h y Y i p * stage_defect n s a c f t h y Y i p)) i); [|exact Hi]].
    + apply (Rsum_term n (fun p => stage_defect n s a c f t h y Y i p * stage_defect n s a c f t h y Y i p) p); [|exact Hp]. intros k. apply Rle_0_sqr.
    + intros k. apply Rsum_nonneg. intros q _. apply Rle_0_sqr.
  - assert (He : forall k, Rabs (ventry e k) <= tau).
    { intros k. destruct (Nat.lt_ge_cases k (length e)) as [Hk|Hk]; [|rewrite ventry_out by exact Hk; rewrite Rabs_R0; exact Htau].
      eapply Rle_trans; [|exact Hdx]. apply square_abs. apply Rlt_le. eapply Rle_lt_trans; [|exact Hcr]. apply (Rsum_term (length e) (fun i => ventry e i * ventry e i) k); [|exact Hk]. intros j. apply Rle_0_sqr. }
    assert (Hinv : invertible M).
    { apply (stage_matrix_invertible n s a h J M L); try assumption; [lra|]. intros k Hk. eapply Rle_lt_trans; [|exact Hsm]. apply Rmult_le_compat_r; [apply Rmult_le_pos; [apply pos_INR|exact HL]|].
      apply Rmult_le_compat_l; [lra|]. apply arow. exact Hk. }
    specialize (Hsol Hinv i p Hi Hp). rewrite Rsum_blocks in Hsol.
    assert (E1 : Rsum s (fun j => Rsum n (fun q => mentry M (n * i + p) (n * j + q) * ventry e (n * j + q))) = ventry e (n * i + p) - h * Rsum s (fun j => a i j * Rsum n (fun q => mentry J p q * ventry e (n * j + q)))).
    { rewrite (Rsum_ext s _ (fun j => delta i j * Rsum n (fun q => delta p q * ventry e (n * j + q)) - h * (a i j * Rsum n (fun q => mentry J p q * ventry e (n * j + q))))).
      - rewrite Rsum_minus, delta_sum by exact Hi. rewrite delta_sum by exact Hp. rewrite Rsum_scal. reflexivity.
      - intros j Hj. rewrite <- !Rsum_scal, <- Rsum_minus. apply Rsum_ext. intros q Hq. rewrite (proj2 (proj2 HM)) by assumption. ring. }
    rewrite E1 in Hsol. unfold stage_defect in Hsol |- * . rewrite HY, Rmult_1_l.
    assert (E2 : ventry Y0 (n * i + p) + ventry e (n * i + p) - h * Rsum s (fun j => a i j * ventry (stage_slope n c f t h y Y j) p) =
      h * Rsum s (fun j => a i j * (Rsum n (fun q => mentry J p q * ventry e (n * j + q)) - (ventry (stage_slope n c f t h y Y j) p - ventry (stage_slope n c f t h y Y0 j) p)))).
    { rewrite (Rsum_ext s (fun j => a i j * (_ - _)) (fun j => (a i j * Rsum n (fun q => mentry J p q * ventry e (n * j + q)) - a i j * ventry (stage_slope n c f t h y Y j) p) + a i j * ventry (stage_slope n c f t h y Y0 j) p)) by (intros; ring).
      rewrite Rsum_plus, Rsum_minus. lra. }
    rewrite E2, Rabs_mult, (Rabs_pos_eq h) by lra.
    apply Rle_trans with (1 * (asum * ((INR n * L + L) * tau))); [|pose proof (Rmult_le_pos _ _ H0 Htau); lra].
    assert (H1 : 0 <= (INR n * L + L) * tau). { apply Rmult_le_pos; [|exact Htau]. pose proof (Rmult_le_pos _ _ (pos_INR n) HL). lra. }
    apply Rmult_le_compat; [lra|apply Rabs_pos|lra|]. apply rows_le; [exact Hi|exact H1|].
    intros j Hj. eapply Rle_trans; [apply Rabs_triang|]. rewrite Rabs_Ropp, Rmult_plus_distr_r. apply Rplus_le_compat.
    + eapply Rle_trans; [apply Rsum_abs|]. apply Rle_trans with (Rsum n (fun _ => L * tau)).
      * apply Rsum_le. intros q Hq. rewrite Rabs_mult. apply Rmult_le_compat; try apply Rabs_pos; [apply HJ; assumption|apply He].
      * rewrite Rsum_const. right. ring.
    + apply slope_diff; [exact Hj|exact Hp|]. intros k. rewrite HY, Rmult_1_l. replace (ventry Y0 k + ventry e k - ventry Y0 k) with (ventry e k) by ring. apply He.
Qed.

(** the stages are small *)
Lemma stages_bounded Y B rho : length Y = (s * n)%nat -> 0 <= B -> 0 <= rho -> h * asum * L <= 1 / 2 -> (forall i p, (i < s)%nat -> (p < n)%nat -> Rabs (stage_defect n s a c f t h y Y i p) <= rho) ->
  (forall j q, (j < s)%nat -> (q < n)%nat -> Rabs (ventry (f (t + c j * h) (vtab n (fun i => ventry y i))) q) <= B) ->
  forall i p, (i < s)%nat -> (p < n)%nat -> Rabs (ventry Y (n * i + p)) <= 2 * (rho + h * asum * B).
Proof.
  intros HYl HB Hrho Hs Hd Hf. destruct (finite_max2 s n (fun i p => ventry Y (n * i + p))) as (k & Hk & K1 & K2).
  assert (Hall : forall l, Rabs (ventry Y l - ventry (vzeros (s * n)) l) <= k).
  { intros l. rewrite ventry_vzeros, Rminus_0_r. destruct (Nat.lt_ge_cases l (length Y)) as [Hl|Hl]; [|rewrite ventry_out by exact Hl; rewrite Rabs_R0; exact Hk].
    rewrite HYl, Nat.mul_comm in Hl. destruct (block_index n s l Hl) as (i & p & Hi & Hp & ->). apply K1; assumption. }
  assert (Hsl : forall j q, (j < s)%nat -> (q < n)%nat -> Rabs (ventry (stage_slope n c f t h y Y j) q) <= B + L * k).
  { intros j q Hj Hq. replace (ventry (stage_slope n c f t h y Y j) q) with (ventry (stage_slope n c f t h y (vzeros (s * n)) j) q + (ventry (stage_slope n c f t h y Y j) q - ventry (stage_slope n c f t h y (vzeros (s * n)) j) q)) by ring.
    eapply Rle_trans; [apply Rabs_triang|]. apply Rplus_le_compat; [|apply slope_diff; assumption]. unfold stage_slope, stage_point.
    rewrite (vtab_ext n _ (fun i => ventry y i)) by (intros i Hi; rewrite ventry_vzeros; ring). apply Hf; assumption. }
  assert (HkL : 0 <= L * k) by (apply Rmult_le_pos; assumption). pose proof (asum_pos s a) as Ha.
  assert (Hb : forall i p, (i < s)%nat -> (p < n)%nat -> Rabs (ventry Y (n * i + p)) <= rho + h * asum * B + 1 / 2 * k).
  { intros i p Hi Hp. replace (ventry Y (n * i + p)) with (stage_defect n s a c f t h y Y i p + h * Rsum s (fun j => a i j * ventry (stage_slope n c f t h y Y j) p)) by (unfold stage_defect; ring).
    eapply Rle_trans; [apply Rabs_triang|]. rewrite Rplus_assoc. apply Rplus_le_compat; [apply Hd; assumption|]. rewrite Rabs_mult, (Rabs_pos_eq h) by lra.
    apply Rle_trans with (h * (asum * (B + L * k))).
    - apply Rmult_le_compat_l; [lra|]. apply rows_le; [exact Hi|lra|]. intros j Hj. apply Hsl; assumption.
    - replace (h * (asum * (B + L * k))) with (h * asum * B + h * asum * L * k) by ring. apply Rplus_le_compat_l. apply Rmult_le_compat_r; assumption. }
  assert (Hkb : k <= 2 * (rho + h * asum * B)).
  { destruct K2 as [->|(i & p & Hi & Hp & Ek)].
    - pose proof (Rmult_le_pos _ _ (Rmult_le_pos _ _ (proj1 Hh) Ha) HB). lra.
    - specialize (Hb i p Hi Hp). rewrite <- Ek in Hb. lra. }
  intros i p Hi Hp. eapply Rle_trans; [apply K1; assumption|exact Hkb].
Qed.
End Step.

(** the weights of the stages are determined by the coefficients *)
Lemma weights_bounded A b s : nrows A = s -> invertible A -> exists D, 0 <= D /\ forall d, stage_weights s (mfun A) b d -> Rsum s (fun i => Rabs (d i)) <= D.
Proof.
  intros Hs (B & H1 & H2 & H3 & H4). rewrite Hs in * . exists (Rsum s (fun i => Rsum s (fun j => Rabs (mentry B j i) * Rabs (b j)))). split.
  - apply Rsum_nonneg. intros. apply Rsum_nonneg. intros. apply Rmult_le_pos; apply Rabs_pos.
  - intros d Hd. apply Rsum_le. intros i Hi. assert (E : d i = Rsum s (fun j => mentry B j i * b j)).
    { rewrite (Rsum_ext s _ (fun j => Rsum s (fun k => d k * (mentry A k j * mentry B j i)))).
      - rewrite Rsum_swap. rewrite (Rsum_ext s _ (fun k => d k * delta k i)) by (intros k Hk; rewrite Rsum_scal; f_equal; apply (H4 k i Hk Hi)). symmetry. apply delta_sum_r, Hi.
      - intros j Hj. rewrite <- (Hd j Hj), <- Rsum_scal. apply Rsum_ext. intros k _. unfold mfun. ring. }
    rewrite E. eapply Rle_trans; [apply Rsum_abs|]. apply Rsum_le. intros j _. rewrite Rabs_mult. lra.
Qed.

(** * Consecutive accepted attempts *)
Lemma filter_nth {A} (g : A -> bool) l : forall k x, nth_error (filter g l) k = Some x -> exists j, nth_error l j = Some x /\ filter g (firstn j l) = firstn k (filter g l).
Proof.
  induction l as [|z l IH]; intros k x Hk; [destruct k; discriminate|]. cbn [filter] in * . destruct (g z) eqn:Eg.
  - destruct k as [|k]; [exists O; auto|]. destruct (IH k x Hk) as (j & J1 & J2). exists (S j). split; [exact J1|]. cbn [firstn filter]. rewrite Eg, J2. reflexivity.
  - destruct (IH k x Hk) as (j & J1 & J2). exists (S j). split; [exact J1|]. cbn [firstn filter]. rewrite Eg, J2. reflexivity.
Qed.
Lemma last_firstn {A} (d : A) l k : (k <= length l)%nat -> last (firstn k l) d = nth k (d :: l) d.
Proof.
  revert k. induction l as [|x l IH] using rev_ind; intros k Hk; [destruct k; [reflexivity|simpl in Hk; lia]|]. rewrite app_length in Hk. simpl in Hk.
  destruct (Nat.eq_dec k (S (length l))) as [->|Hne].
  - rewrite firstn_all2 by (rewrite app_length; simpl; lia). rewrite last_last. cbn [nth]. rewrite app_nth2, Nat.sub_diag by lia. reflexivity.
  - rewrite firstn_app. replace (k - length l)%nat with O by lia. rewrite app_nil_r, IH by lia. destruct k as [|k]; [reflexivity|]. cbn [nth]. rewrite app_nth1 by lia. reflexivity.
Qed.
Lemma accepted_nth t0 y0 (atts : list (iattempt R)) k x : ichained t0 y0 atts -> nth_error (ended Accepted atts) k = Some x ->
  ia_t x = nth k (t0 :: map ia_end (ended Accepted atts)) t0 /\ ia_y x = nth k (y0 :: map ia_yn (ended Accepted atts)) y0 /\
  ia_end x = nth (S k) (t0 :: map ia_end (ended Accepted atts)) t0 /\ ia_yn x = nth (S k) (y0 :: map ia_yn (ended Accepted atts)) y0.
Proof.
  intros Hc Hk. assert (Lk : (k < length (ended Accepted atts))%nat) by (apply nth_error_Some; congruence).
  destruct (filter_nth _ _ _ _ Hk) as (j & J1 & J2). destruct (Hc j x J1) as [E1 E2]. unfold itime_after, istate_after, ended in E1, E2. rewrite J2 in E1, E2. fold (ended Accepted atts) in E1, E2.
  rewrite <- firstn_map, last_firstn in E1 by (rewrite map_length; lia). rewrite <- firstn_map, last_firstn in E2 by (rewrite map_length; lia). split; [exact E1|]. split; [exact E2|].
  cbn [nth].
  split; symmetry; [rewrite (nth_indep _ t0 (ia_end x)) by (rewrite map_length; exact Lk)|rewrite (nth_indep _ y0 (ia_yn x)) by (rewrite map_length; exact Lk)]; rewrite map_nth; f_equal; apply nth_error_nth; exact Hk.
Qed.

(** * One accepted step in the augmented space *)
Section AugStep.
Variables (P n : nat) (M r t0 t1 L : R) (f : R -> list R -> list R) (phi : R -> list R) (df : list nat -> vec -> nat -> R).
Hypothesis Hs : solves n f t0 t1 phi.
Hypothesis Hd : derivatives_bounded P n M (tube n r t0 t1 phi) f df.
Hypothesis HL : 0 <= L.
Hypothesis Hr : 0 < r.
Hypothesis Hlip : lipschitz_in n L t0 t1 f.
Variables (s : nat) (a : nat -> nat -> R) (b c : nat -> R) (D : R).
Hypothesis Hc : forall i, (i < s)%nat -> 0 <= c i <= 1.
Hypothesis Hrow : forall i, (i < s)%nat -> Rsum s (fun j => a i j) = c i.
Hypothesis Hb : Rsum s b = 1.
Hypothesis HD : 0 <= D.
Hypothesis Hw : forall d, stage_weights s a b d -> Rsum s (fun i => Rabs (d i)) <= D.
Definition c1 := 1 + asum s a * (INR n * L + L).
Definition slack := 1 + 2 / r + 2 * (asum s a * (INR n * L)) + 2 * (asum s a * L) + 8 / r * (c1 + asum s a * Rmax M 1).
Lemma c1_pos : 0 <= c1.
Proof. unfold c1. pose proof (Rmult_le_pos _ _ (pos_INR n) HL). pose proof (Rmult_le_pos _ _ (asum_pos s a) (Rplus_le_le_0_compat _ _ H HL)). lra. Qed.

Lemma aug_step_upto t h y yn d Y Y0 J e tol dx tau : t0 <= t -> t + h <= t1 -> 0 <= h -> 0 <= tau -> h * slack <= 1 -> tau * slack <= 1 -> length Y = (s * n)%nat -> stage_weights s a b d -> length y = n ->
  (forall p q, (p < n)%nat -> (q < n)%nat -> Rabs (mentry J p q) <= L) -> stage_newton n s a c f t h y J false Y0 Y e ->
  (defect_norm2 n s a c f t h y Y < tol * tol \/ Rsum (length e) (fun i => ventry e i * ventry e i) < dx * dx) -> Rabs tol <= tau -> Rabs dx <= tau ->
  (forall p, (p < n)%nat -> ventry yn p - (ventry y p + h * Rsum s (fun j => b j * ventry (stage_slope n c f t h y Y j) p)) = Rsum s (fun i => d i * stage_defect n s a c f t h y Y i p)) ->
  small (S n) (r / 2) (fun q => aug t y q - aug t (phi t) q) ->
  exists Z, stages_upto (S n) (adf df) s a (aug t (phi t)) (aug t y) r h (c1 * tau) Z /\
    small (S n) (D * c1 * tau) (fun q => aug (t + h) yn q - (aug t y q + h * Rsum s (fun i => b i * adf df [] (fun p => aug t y p + Z i p) q))).
Proof.
  intros Ht Hth Hh Htau Hsl Hsl2 HYl Hdw Hyl HJ Hnew Hcr Htol Hdx Hyn Hy.
  pose proof (asum_pos s a) as Ha. pose proof c1_pos as Hc1. assert (HM : 1 <= Rmax M 1) by apply Rmax_r.
  assert (P1 : 0 <= asum s a * (INR n * L)) by (apply Rmult_le_pos; [exact Ha|apply Rmult_le_pos; [apply pos_INR|exact HL]]).
  assert (P2 : 0 <= asum s a * L) by (apply Rmult_le_pos; assumption).
  assert (P3 : 0 <= asum s a * Rmax M 1) by (apply Rmult_le_pos; lra).
  assert (Pr : 0 < / r) by (apply Rinv_0_lt_compat; exact Hr).
  assert (P4 : 0 <= 8 / r * c1) by (apply Rmult_le_pos; [unfold Rdiv; lra|exact Hc1]). assert (P5 : 0 <= 8 / r * (asum s a * Rmax M 1)) by (apply Rmult_le_pos; [unfold Rdiv; lra|exact P3]).
  assert (P6 : 0 <= 2 / r) by (unfold Rdiv; lra).
  assert (Es : slack = 1 + 2 / r + 2 * (asum s a * (INR n * L)) + 2 * (asum s a * L) + 8 / r * c1 + 8 / r * (asum s a * Rmax M 1)) by (unfold slack; ring).
  assert (Pc : forall u x, 0 <= u -> u * slack <= 1 -> 0 <= x <= slack -> u * x <= 1) by (intros u x Hu Hk Hx; eapply Rle_trans; [|exact Hk]; apply Rmult_le_compat_l; lra).
  assert (Q1 : h <= 1) by (pose proof (Pc h 1 Hh Hsl); lra).
  assert (Q2 : h * asum s a * (INR n * L) < 1) by (pose proof (Pc h (2 * (asum s a * (INR n * L))) Hh Hsl); lra).
  assert (Q3 : h * asum s a * L <= 1 / 2) by (pose proof (Pc h (2 * (asum s a * L)) Hh Hsl); lra).
  assert (Q4 : h <= r / 2). { pose proof (Pc h (2 / r) Hh Hsl ltac:(lra)) as Q. apply Rmult_le_reg_r with (2 / r); [unfold Rdiv; lra|]. replace (r / 2 * (2 / r)) with 1 by (field; lra). exact Q. }
  assert (Q5 : tau * c1 <= r / 8). { pose proof (Pc tau (8 / r * c1) Htau Hsl2 ltac:(lra)) as Q. apply Rmult_le_reg_r with (8 / r); [unfold Rdiv; lra|]. replace (r / 8 * (8 / r)) with 1 by (field; lra). lra. }
  assert (Q6 : h * asum s a * Rmax M 1 <= r / 8). { pose proof (Pc h (8 / r * (asum s a * Rmax M 1)) Hh Hsl ltac:(lra)) as Q. apply Rmult_le_reg_r with (8 / r); [unfold Rdiv; lra|]. replace (r / 8 * (8 / r)) with 1 by (field; lra). lra. }
  assert (Hh1 : 0 <= h <= 1) by lra.
  pose proof (newton_defect n s a c f L t0 t1 HL Hlip Hc t h y Hh1 Ht Hth J Y0 Y e tol dx tau HJ Q2 Hnew Hcr Htol Hdx) as Hdef. fold c1 in Hdef.
  assert (Hrho : 0 <= c1 * tau) by (apply Rmult_le_pos; assumption).
  pose proof (stages_bounded n s a c f L t0 t1 HL Hlip Hc t h y Hh1 Ht Hth Y (Rmax M 1) (c1 * tau) HYl ltac:(lra) Hrho Q3 Hdef) as HYb.
  assert (Hf : forall j q, (j < s)%nat -> (q < n)%nat -> Rabs (ventry (f (t + c j * h) (vtab n (fun i => ventry y i))) q) <= Rmax M 1).
  { intros j q Hj Hq. pose proof (node_range s c Hc h Hh1 j Hj) as Hn. destruct Hd as (D1 & _ & D3). eapply Rle_trans; [|apply Rmax_l].
    pose proof (D1 (aug (t + c j * h) y) q Hq) as E. unfold rhs_at in E. cbn [aug] in E. rewrite <- E. apply D3; [simpl; lia|exact Hq|].
    exists t. split; [lra|]. cbn [aug]. split; [rewrite Rabs_pos_eq; lra|]. intros i Hi. pose proof (Hy (S i) ltac:(lia)) as E2. cbv beta in E2. cbn [aug] in E2. lra. }
  specialize (HYb Hf).
  set (Z := fun i q => match q with O => c i * h | S q => ventry Y (n * i + q) end).
  assert (E : forall j q, (q < n)%nat -> adf df [] (fun p => aug t y p + Z j p) (S q) = ventry (stage_slope n c f t h y Y j) q).
  { intros j q Hq. cbn [adf]. rewrite (proj1 Hd) by exact Hq. reflexivity. }
  exists Z. split.
  - intros i Hi. pose proof (node_range s c Hc h Hh1 i Hi) as Hn. split.
    + intros [|q] Hq; cbn [aug Z]; [replace (t + c i * h - t) with (c i * h) by ring; rewrite Rabs_pos_eq; lra|].
      replace (ventry y q + ventry Y (n * i + q) - ventry (phi t) q) with ((ventry y q - ventry (phi t) q) + ventry Y (n * i + q)) by ring.
      eapply Rle_trans; [apply Rabs_triang|]. pose proof (Hy (S q) Hq) as E2. cbv beta in E2. cbn [aug] in E2. pose proof (HYb i q Hi ltac:(lia)). lra.
    + intros [|q] Hq; cbn [Z].
      * cbn [adf]. erewrite (Rsum_ext s); [|intros j _; apply Rmult_1_r]. rewrite Hrow by exact Hi. replace (c i * h - h * c i) with 0 by ring. rewrite Rabs_R0. exact Hrho.
      * rewrite (Rsum_ext s _ (fun j => a i j * ventry (stage_slope n c f t h y Y j) q)) by (intros j _; rewrite E by lia; reflexivity). apply (Hdef i q Hi). lia.
  - intros [|q] Hq; cbn [aug].
    + cbn [adf]. erewrite (Rsum_ext s); [|intros j _; apply Rmult_1_r]. rewrite Hb. replace (t + h - (t + h * 1)) with 0 by ring. rewrite Rabs_R0. rewrite Rmult_assoc. apply Rmult_le_pos; assumption.
    + rewrite (Rsum_ext s _ (fun j => b j * ventry (stage_slope n c f t h y Y j) q)) by (intros j _; rewrite E by lia; reflexivity). rewrite Hyn by lia.
      eapply Rle_trans; [apply Rsum_abs|]. apply Rle_trans with (Rsum s (fun i => Rabs (d i) * (c1 * tau))).
      * apply Rsum_le. intros i Hi. rewrite Rabs_mult. apply Rmult_le_compat_l; [apply Rabs_pos|]. apply Hdef; [exact Hi|lia].
      * rewrite Rsum_scal_r, (Rmult_assoc D). apply Rmult_le_compat_r; [exact Hrho|]. apply Hw, Hdw.
Qed.
End AugStep.

(** * The run *)
Lemma closed_form_of m p : In (m, p) implicit_orders -> In m implicit_closed_form.
Proof. unfold implicit_orders, implicit_closed_form. simpl. intros H. repeat (destruct H as [H|H]; [injection H as <- <-; tauto|]). contradiction. Qed.
Lemma runnable_method m : In m implicit_runnable -> In m implicit_methods.
Proof. unfold implicit_runnable, implicit_methods. simpl. tauto. Qed.
Lemma order_weights s a b P : has_order s a b P -> (1 <= P)%nat -> Rsum s b = 1.
Proof.
  intros Ho HP. pose proof (Ho (Node []) ltac:(simpl; lia)) as E. unfold order_condition in E. cbn in E. rewrite <- (Rsum_ext s (fun i => b i * 1)) by (intros; ring).
  etransitivity; [|etransitivity; [exact E|]]; [reflexivity|lra].
Qed.

Section Converge.
Context {HE : Env R}.
Theorem irk_converges m p P n f phi t0 t1 r L : In (m, p) implicit_orders -> In m implicit_runnable -> (1 <= P <= p)%nat -> t0 < t1 -> 0 < r -> 0 <= L ->
  solves n f t0 t1 phi -> smooth_near P n r t0 t1 f phi -> lipschitz_in n L t0 t1 f ->
  exists h0 C, 0 < h0 /\ 0 <= C /\
  forall (LA : LinAlg R) (HP : ExactProducts LA) (HX : ExactSolve LA) (HLU : ExactLU LA) (HI : ExactInverse LA) (St : Type) (F : functor R St),
  computes F f -> jac_matrices F -> jac_bounded F n L t0 t1 ->
  forall fuel opts oo nopts dt w w' sol H tau, (ndebug = false \/ 0 < dt) -> irk_odeint fuel F t0 t1 (phi t0) opts oo m dt w = (w', Ok sol) ->
  store_in_vectors oo = true -> output_interval oo = 1%Z -> io_newton opts = Some nopts -> Rabs (o_tol nopts) <= tau -> Rabs (o_dx_delta nopts) <= tau ->
  steps_at_most H (io_t_vals sol) -> 0 <= H <= h0 -> INR (length (io_t_vals sol)) * tau <= h0 ->
  forall k q, (k < length (io_t_vals sol))%nat -> (q < n)%nat ->
  Rabs (ventry (nth k (io_y_vals sol) []) q - ventry (phi (nth k (io_t_vals sol) 0)) q) <= C * (H ^ P + INR k * tau).
Proof.
  intros Hin Hrn HPp Ht Hr HL Hs (M & df & Hd) Hlip.
  destruct (irk_get_ok (T := R) m) as (sc & Hg & Htab & Hdims). destruct (irk_orders_final m p Hin) as (sc' & Hg' & _ & [Ho _]). rewrite Hg in Hg'. injection Hg' as <-.
  assert (Hdd : length (sc_b sc) = irk_stages m /\ length (sc_c sc) = irk_stages m /\ nrows (sc_A sc) = irk_stages m).
  { unfold dims_ok in Hdims. rewrite !andb_true_iff, !Nat.eqb_eq in Hdims. tauto. }
  destruct Hdd as (Db & Dc & DA). set (s := length (sc_b sc)) in * .
  pose proof (runnable_invertible m sc Hrn Htab) as Hinv. destruct (weights_bounded (sc_A sc) (vfun (sc_b sc)) s ltac:(congruence) Hinv) as (D & HD & Hw).
  destruct (irk_rows m sc (runnable_method m Hrn) Hg) as (_ & _ & Hrow). specialize (Hrow (closed_form_of m p Hin)). fold s in Hrow.
  assert (Hc : forall i, (i < s)%nat -> 0 <= vfun (sc_c sc) i <= 1).
  { intros i Hi. pose proof (irk_nodes HE m sc Htab) as Hn. rewrite Forall_forall in Hn. apply Hn. apply nth_In. lia. }
  assert (HoP : has_order s (mfun (sc_A sc)) (vfun (sc_b sc)) P) by (intros t Hv; apply Ho; lia).
  pose proof (order_weights _ _ _ _ HoP (proj1 HPp)) as Hb.
  assert (HM1 : 0 <= Rmax M 1) by (apply Rle_trans with 1; [lra|apply Rmax_r]).
  set (k1 := c1 n L s (mfun (sc_A sc))). assert (Hk1 : 0 <= k1) by (apply c1_pos; exact HL).
  destruct (many_steps_upto (S n) P (Rmax M 1) (adf df) HM1 (proj1 HPp) s (mfun (sc_A sc)) (vfun (sc_b sc)) t0 t1 r (fun t => aug t (phi t)) (r / 2) k1 (D * k1) Ht Hr HoP
    (aug_good P n M r t0 t1 f phi df Hd) (aug_flow P n M r t0 t1 f phi df Hs Hd) ltac:(lra) Hk1 (Rmult_le_pos _ _ HD Hk1)) as (h1 & C & Hh1 & HC & K).
  set (sl := slack n M r L s (mfun (sc_A sc))).
  assert (Hsl : 1 <= sl).
  { unfold sl, slack. fold k1. pose proof (asum_pos s (mfun (sc_A sc))) as Ha. assert (0 < / r) by (apply Rinv_0_lt_compat; exact Hr).
    assert (0 <= asum s (mfun (sc_A sc)) * (INR n * L)) by (apply Rmult_le_pos; [exact Ha|apply Rmult_le_pos; [apply pos_INR|exact HL]]).
    assert (0 <= asum s (mfun (sc_A sc)) * L) by (apply Rmult_le_pos; assumption). assert (0 <= asum s (mfun (sc_A sc)) * Rmax M 1) by (apply Rmult_le_pos; assumption).
    assert (0 <= 8 / r * (k1 + asum s (mfun (sc_A sc)) * Rmax M 1)) by (apply Rmult_le_pos; unfold Rdiv; lra). unfold Rdiv in *; lra. }
  assert (Hmin : 0 < Rmin h1 (/ sl)) by (apply Rmin_glb_lt; [exact Hh1|apply Rinv_0_lt_compat; lra]).
  exists (Rmin h1 (/ sl)), C. split; [exact Hmin|]. split; [exact HC|].
  intros LA HP HX HLU HI St F HF HJm HJb fuel opts oo nopts dt w w' sol H tau Hdt Hrun Hst1 Hint Hno Htol Hdx Hsteps HH Htau.
  assert (Hn : length (phi t0) = n) by apply Hs.
  assert (Hdt' : ndebug = false \/ (t0 < t1 /\ 0 < dt)) by (destruct Hdt; [left|right; split]; assumption).
  destruct (irk_accepted_steps F f HF HJm _ _ _ _ _ _ _ _ _ _ _ Hdt' Hrun) as (sc' & nopts' & atts & Hg' & Hno' & Hrec & Hch & Hacc).
  rewrite Hg in Hg'. injection Hg' as <-. rewrite Hno in Hno'. injection Hno' as <-. rewrite Hn in Hacc.
  destruct (irk_times F _ _ _ _ _ _ _ _ _ _ _ Hdt' Hrun ltac:(lra)) as (T1 & T2 & _). rewrite Forall_forall in T2.
  destruct Hrec as (R1 & R2 & _). rewrite Hst1 in R1, R2. unfold shown in R1, R2. rewrite Hint, every_one in R1, R2.
  set (acc := ended Accepted atts) in * . set (ts := io_t_vals sol) in * . set (ys := io_y_vals sol) in * .
  assert (Lt : length ts = S (length acc)) by (rewrite R1; simpl; rewrite map_length; reflexivity).
  assert (Ly : length ys = S (length acc)) by (rewrite R2; simpl; rewrite map_length; reflexivity).
  assert (Htau0 : 0 <= tau) by (pose proof (Rabs_pos (o_tol nopts)); lra).
  assert (Htsl : forall u, 0 <= u -> u <= Rmin h1 (/ sl) -> u * sl <= 1).
  { intros u Hu1 Hu2. apply Rmult_le_reg_r with (/ sl); [apply Rinv_0_lt_compat; lra|]. rewrite Rmult_assoc, Rinv_r, Rmult_1_r, Rmult_1_l by lra. eapply Rle_trans; [exact Hu2|apply Rmin_r]. }
  intros k q Hk Hq.
  refine (K (length acc) (fun k => nth k ts 0) (fun k => aug (nth k ts 0) (nth k ys [])) H tau _ Htau0 _ _ _ _ _ _ k ltac:(lia) (S q) ltac:(lia)).
  - split; [apply HH|]. eapply Rle_trans; [apply HH|apply Rmin_l].
  - apply Rle_trans with (INR (length ts) * tau); [apply Rmult_le_compat_r; [exact Htau0|apply le_INR; lia]|]. eapply Rle_trans; [exact Htau|apply Rmin_l].
  - rewrite R1. reflexivity.
  - intros i Hi. apply T2. apply nth_In. lia.
  - intros i Hi. split; [|apply Hsteps; lia]. pose proof (sorted_nth ts T1 i ltac:(lia)). lra.
  - intros i _. cbv beta. rewrite R1, R2. reflexivity.
  - intros i Hi. cbv zeta beta. intros Hsm. destruct (nth_error acc i) as [x|] eqn:Ex; [|apply nth_error_None in Ex; lia].
    destruct (accepted_nth _ _ _ _ _ Hch Ex) as (X1 & X2 & X3 & X4). fold acc in X1, X2, X3, X4. rewrite <- R1 in X1, X3. rewrite <- R2 in X2, X4.
    rewrite (nth_indep ts t0 0) in X1 by lia. rewrite (nth_indep ts t0 0) in X3 by lia. rewrite (nth_indep ys _ []) in X2 by lia. rewrite (nth_indep ys _ []) in X4 by lia.
    destruct (Hacc x (nth_error_In _ _ Ex)) as (Lx & _ & Hx). cbv zeta in Hx. destruct Hx as (Y & d & Y0 & J & e & HYl & Hdw & Hynl & _ & HJa & Hnew & Hcr & Hfin & _).
    fold s in HYl, Hdw, Hnew, Hcr, Hfin. unfold ia_end in X3. simpl in X3. 
    rewrite <- X1, <- X2 in Hsm. rewrite <- X1, <- X2, <- X3, <- X4.
    assert (B1 : t0 <= ia_t x <= t1) by (rewrite X1; apply T2, nth_In; lia). assert (B2 : t0 <= ia_t x + ia_dt x <= t1) by (rewrite X3; apply T2, nth_In; lia).
    assert (B3 : ia_t x + ia_dt x - ia_t x <= H) by (rewrite X3, X1; apply Hsteps; lia).
    assert (B4 : 0 <= ia_dt x) by (pose proof (sorted_nth ts T1 i ltac:(lia)) as B; rewrite <- X1, <- X3 in B; lra).
    replace (ia_t x + ia_dt x - ia_t x) with (ia_dt x) by ring.
    refine (aug_step_upto P n M r t0 t1 L f phi df Hd HL Hr Hlip s (mfun (sc_A sc)) (vfun (sc_b sc)) (vfun (sc_c sc)) D Hc Hrow Hb HD Hw (ia_t x) (ia_dt x) (ia_y x) (ia_yn x) d Y Y0 J e (o_tol nopts) (o_dx_delta nopts) tau
      (proj1 B1) (proj2 B2) B4 Htau0 (Htsl _ B4 _) (Htsl _ Htau0 _) HYl Hdw Lx _ Hnew Hcr Htol Hdx Hfin Hsm).
    + lra.
    + eapply Rle_trans; [|exact Htau]. rewrite <- (Rmult_1_l tau) at 1. apply Rmult_le_compat_r; [exact Htau0|]. change 1 with (INR 1). apply le_INR. lia.
    + intros p0 q0 Hp0 Hq0. exact (HJb _ _ _ B1 Lx HJa p0 q0 Hp0 Hq0).
Qed.
End Converge.

(** * Steps limited by the options *)
Lemma attempts_bounded t1 (atts : list (iattempt R)) dt mx H : dt <= H -> 0 < mx <= H -> Forall (fun x => 0 < ia_dt x <= t1 - ia_t x) atts ->
  (forall a, nth_error atts 0 = Some a -> ia_dt a <= dt) ->
  (forall k a b, nth_error atts k = Some a -> nth_error atts (S k) = Some b ->
      match ia_out a with
      | NewtonFailed => ia_dt b = Rmin (7 / 10 * ia_dt a) (t1 - ia_t b)
      | TooInaccurate => ia_dt b <= 9 / 10 * ia_dt a /\ (0 < mx -> ia_dt b <= mx)
      | Accepted => ia_dt b <= 72 / 10 * ia_dt a /\ (0 < mx -> ia_dt b <= mx)
      end) -> forall k a, nth_error atts k = Some a -> ia_dt a <= H.
Proof.
  intros Hd Hm Hp H0 Hs. induction k as [|k IH]; intros x Hx; [specialize (H0 x Hx); lra|].
  destruct (nth_error atts k) as [z|] eqn:Ez; [|apply nth_error_None in Ez; assert (S k < length atts)%nat by (apply nth_error_Some; congruence); lia].
  specialize (IH z eq_refl). rewrite Forall_forall in Hp. pose proof (Hp z (nth_error_In _ _ Ez)) as Hz. specialize (Hs k z x Ez Hx). destruct (ia_out z).
  - rewrite Hs. eapply Rle_trans; [apply Rmin_l|]. lra.
  - destruct Hs as [_ Hs]. specialize (Hs (proj1 Hm)). lra.
  - destruct Hs as [_ Hs]. specialize (Hs (proj1 Hm)). lra.
Qed.
Lemma attempts_isteps H t0 y0 (atts : list (iattempt R)) : ichained t0 y0 atts -> (forall k a, nth_error atts k = Some a -> ia_dt a <= H) -> steps_at_most H (t0 :: map ia_end (ended Accepted atts)).
Proof.
  intros Hc Hb k Hk. simpl in Hk. rewrite map_length in Hk. destruct (nth_error (ended Accepted atts) k) as [x|] eqn:Ex; [|apply nth_error_None in Ex; lia].
  destruct (accepted_nth _ _ _ _ _ Hc Ex) as (X1 & _ & X3 & _).
  rewrite (nth_indep _ 0 t0) by (simpl; rewrite map_length; lia). rewrite (nth_indep (t0 :: _) 0 t0) by (simpl; rewrite map_length; lia). rewrite <- X1, <- X3.
  destruct (filter_nth _ _ _ _ Ex) as (j & J1 & _). specialize (Hb j x J1). unfold ia_end. simpl. lra.
Qed.

Section Limited.
Context {HE : Env R}.
Theorem irk_adaptive_converges m p P n f phi t0 t1 r L : In (m, p) implicit_orders -> In m implicit_runnable -> (1 <= P <= p)%nat -> t0 < t1 -> 0 < r -> 0 <= L ->
  solves n f t0 t1 phi -> smooth_near P n r t0 t1 f phi -> lipschitz_in n L t0 t1 f ->
  exists h0 C, 0 < h0 /\ 0 <= C /\
  forall (LA : LinAlg R) (HP : ExactProducts LA) (HX : ExactSolve LA) (HLU : ExactLU LA) (HI : ExactInverse LA) (St : Type) (F : functor R St),
  computes F f -> jac_matrices F -> jac_bounded F n L t0 t1 ->
  forall fuel opts oo nopts dt w w' sol H tau, irk_odeint fuel F t0 t1 (phi t0) opts oo m dt w = (w', Ok sol) ->
  store_in_vectors oo = true -> output_interval oo = 1%Z -> io_newton opts = Some nopts -> Rabs (o_tol nopts) <= tau -> Rabs (o_dx_delta nopts) <= tau ->
  0 < dt <= H -> 0 < io_max_dt opts <= H -> H <= h0 -> (0 <= io_max_steps opts)%Z -> IZR (io_max_steps opts + 2) * tau <= h0 ->
  forall k q, (k < length (io_t_vals sol))%nat -> (q < n)%nat ->
  Rabs (ventry (nth k (io_y_vals sol) []) q - ventry (phi (nth k (io_t_vals sol) 0)) q) <= C * (H ^ P + INR k * tau).
Proof.
  intros Hin Hrn HPp Ht Hr HL Hs Hsm Hlip. destruct (irk_converges m p P n f phi t0 t1 r L Hin Hrn HPp Ht Hr HL Hs Hsm Hlip) as (h0 & C & Hh0 & HC & K).
  exists h0, C. split; [exact Hh0|]. split; [exact HC|]. intros LA HP HX HLU HI St F HF HJm HJb fuel opts oo nopts dt w w' sol H tau Hrun Hst Hint Hno Htol Hdx Hdt Hmx HH Hms Htau.
  assert (Htau0 : 0 <= tau) by (pose proof (Rabs_pos (o_tol nopts)); lra).
  refine (K LA HP HX HLU HI St F HF HJm HJb fuel opts oo nopts dt w w' sol H tau (or_intror (proj1 Hdt)) Hrun Hst Hint Hno Htol Hdx _ _ _).
  - destruct (irk_controller F f HF HJm _ _ _ _ _ _ _ _ _ _ _ (or_intror (conj Ht (proj1 Hdt))) Hrun) as (atts & (R1 & _) & Hch & Hpos & H0 & Hcon).
    rewrite R1, Hst. unfold shown. rewrite Hint, every_one. apply (attempts_isteps H t0 (phi t0)); [exact Hch|].
    apply (attempts_bounded t1 atts dt (io_max_dt opts) H (proj2 Hdt) Hmx Hpos); [intros a Ha; rewrite (H0 a Ha); apply Rmin_l|exact Hcon].
  - lra.
  - eapply Rle_trans; [|exact Htau]. apply Rmult_le_compat_r; [exact Htau0|]. rewrite INR_IZR_INZ. apply IZR_le.
    destruct (irk_aligned F fuel t0 t1 (phi t0) opts oo m dt w w' sol Hrun) as (atts & _ & Hct & Ets & _). rewrite Hst, Hint, every_one in Ets.
    destruct (irk_limit F fuel t0 t1 (phi t0) opts oo m dt w w' sol Hrun) as (re & _ & Hl). rewrite Ets. cbn [length]. rewrite map_length.
    destruct Hl as [(_ & _ & Hl)|[(_ & _ & _ & Hl)|(_ & _ & _ & Hl)]]; [specialize (Hl Hms); lia|lia|]. rewrite Hl in Ets. injection Ets as Ets. apply (f_equal (@length R)) in Ets. rewrite map_length in Ets. simpl in Ets. lia.
Qed.
End Limited.

(** * Short steps make all linear systems solvable *)
From Verif Require Import Spec.IrkTotalSpec.
Lemma one_minus_invertible n c J L : (forall p q, (p < n)%nat -> (q < n)%nat -> Rabs (mentry J p q) <= L) -> 0 <= L -> Rabs c * (INR n * L) < 1 -> invertible (one_minus n c J).
Proof.
  intros HJ HL Hc. apply (neumann n (fun p q => c * mentry J p q) (Rabs c * (INR n * L))).
  - split; [|exact Hc]. apply Rmult_le_pos; [apply Rabs_pos|apply Rmult_le_pos; [apply pos_INR|exact HL]].
  - intros i Hi. apply Rle_trans with (Rsum n (fun _ => Rabs c * L)).
    + apply Rsum_le. intros j Hj. rewrite Rabs_mult. apply Rmult_le_compat_l; [apply Rabs_pos|apply HJ; assumption].
    + rewrite Rsum_const. right. ring.
  - apply mtab_nrows.
  - apply mtab_ncols.
  - intros i j Hi Hj. unfold one_minus. apply mentry_vt; assumption.
Qed.
Lemma short_steps_solvable n sc K : 0 <= K -> exists hmax, 0 < hmax /\ forall St (F : functor R St),
  (forall t y J p q, jac_answers F t y J -> (p < n)%nat -> (q < n)%nat -> Rabs (mentry J p q) <= K) -> solvable_up_to F n sc hmax.
Proof.
  intros HK. set (As := asum (length (sc_b sc)) (mfun (sc_A sc))). assert (HA : 0 <= As) by apply asum_pos.
  assert (HnK : 0 <= INR n * K) by (apply Rmult_le_pos; [apply pos_INR|exact HK]).
  set (q := 1 + As * (INR n * K) + Rabs (sc_gamma sc) * (INR n * K)).
  pose proof (Rmult_le_pos _ _ HA HnK) as P1. pose proof (Rmult_le_pos _ _ (Rabs_pos (sc_gamma sc)) HnK) as P2.
  assert (Hq : 0 < q) by (unfold q; lra). exists (/ q). split; [apply Rinv_0_lt_compat; exact Hq|]. intros St F HJ.
  assert (Hb : forall h x, 0 < h <= / q -> 0 <= x <= q - 1 -> h * x < 1).
  { intros h x Hh Hx. apply Rle_lt_trans with (/ q * x); [apply Rmult_le_compat_r; lra|]. apply Rmult_lt_reg_l with q; [exact Hq|]. rewrite <- Rmult_assoc, Rinv_r, Rmult_1_l, Rmult_1_r by lra. lra. }
  split.
  - intros t y J h M Hj Hh HM _. apply (stage_matrix_invertible n (length (sc_b sc)) (mfun (sc_A sc)) h J M K); try assumption; [lra|intros; eapply HJ; eassumption|].
    intros i Hi. apply Rle_lt_trans with (h * (As * (INR n * K))); [|apply Hb; [exact Hh|unfold q; lra]]. rewrite Rmult_assoc. apply Rmult_le_compat_l; [lra|]. apply Rmult_le_compat_r; [exact HnK|]. apply arow, Hi.
  - intros t y J h Hj _ _ Hh. apply (one_minus_invertible n _ J K); [intros; eapply HJ; eassumption|exact HK|].
    rewrite Rabs_mult, (Rabs_pos_eq h) by lra. replace (Rabs (sc_gamma sc) * h * (INR n * K)) with (h * (Rabs (sc_gamma sc) * (INR n * K))) by ring. apply Hb; [exact Hh|unfold q; lra].
Qed.
