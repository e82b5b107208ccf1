(** Two BDF runs on nearby problems from nearby initial values (C135). *)
From Coq Require Import Reals Lra Classical ClassicalEpsilon.
From Verif Require Import Model.Base Model.Scalar Model.LinAlg Model.Newton Model.Enums Model.Options Model.Irk Model.Multistep.
From Verif Require Import Spec.Sums Spec.Observe Spec.NewtonSpec Spec.IrkSpec Spec.MultistepSpec Spec.ConvergenceSpec.
From Verif Require Import Proofs.SumsProofs Proofs.MultistepProofs Proofs.MultistepResults Proofs.MultistepOrders Proofs.Convergence Proofs.ConvergenceAb Proofs.ZeroStable Proofs.Neumann Proofs.MultistepReal Proofs.ConvergenceBdf.
Local Open Scope R_scope.

(** one run: the equations hold up to Newton's tolerance *)
Lemma bdf_run_facts k n f t0 t1 L (LA : LinAlg R) (HP : ExactProducts LA) (HX : ExactSolve LA) (HN : ExactNorm LA) (HE : Env R) (St : Type) (F : functor R St) fuel y0 dt w w' sol :
  (1 <= k <= 6)%nat -> t0 < t1 -> 0 <= L -> (0 < n)%nat -> lipschitz_in n L t0 t1 f -> computes F f -> jac_matrices F -> length y0 = n ->
  (forall t y J, jac_answers F t y J -> nrows J = n -> ncols J = n -> forall p q, (p < n)%nat -> (q < n)%nat -> Rabs (mentry J p q) <= L) ->
  0 < dt -> let h := Rmin dt (t1 - t0) in h * (2 * (INR n * L)) <= 1 ->
  bdf fuel F t0 t1 y0 (Z.of_nat k) dt w = (w', Ok sol) ->
  let ys := bo_y_vals sol in
  length ys = length (bo_t_vals sol) /\ (forall i, (i < length ys)%nat -> nth i (bo_t_vals sol) 0 = t0 + INR i * h) /\
  (forall i, (i < length ys)%nat -> length (yval ys i) = n) /\ (forall i, (i <= k)%nat -> yval ys i = y0) /\
  forall i p, (k < i < length ys)%nat -> t0 + INR i * h <= t1 -> (p < n)%nat ->
    Rabs (bdf_residual k f (t0 + INR i * h) h ys i (yval ys i) p) <= h * (bdf_beta k * ((1 + INR n) * L * (1 / 10000000000))).
Proof.
  intros Hk Ht HL Hn Hl HF HJm Ly HJb Hdt h HD E ys. assert (Hh : 0 < h) by (unfold h; apply Rmin_glb_lt; lra). pose proof (bdf_beta_bounds k Hk) as Hb. assert (n0 : 1 <= INR n) by (replace 1 with (INR 1) by reflexivity; apply le_INR; lia).
  assert (Ho : (1 <= Z.of_nat k <= 6)%Z) by lia.
  assert (Hinv : forall t y J, jac_answers F t y J -> nrows J = length y0 -> ncols J = length y0 -> invertible (bdf_matrix (length y0) (Rmin dt (t1 - t0) * bdf_beta (Z.to_nat (Z.of_nat k))) J)).
  { rewrite Nat2Z.id, Ly. fold h. intros t y J HJ Jr Jc. apply (neumann n (fun p q => h * bdf_beta k * mentry J p q) (1 / 2)); [lra| |apply mtab_nrows|apply mtab_ncols|].
    - intros p Hp. apply Rle_trans with (Rsum n (fun _ => h * bdf_beta k * L)).
      + apply Rsum_le. intros p' Hp'. rewrite Rabs_mult, (Rabs_pos_eq (h * bdf_beta k)) by nra. apply Rmult_le_compat_l; [nra|]. apply (HJb t y J); assumption.
      + rewrite Rsum_const. assert (0 <= INR n * L) by nra. assert (0 <= h * (INR n * L)) by nra. nra.
    - intros p q' Hp Hq'. unfold bdf_matrix. rewrite mtab_entry by assumption. reflexivity. }
  pose proof (bdf_times _ _ _ _ _ _ _ _ _ _ E Ho) as (HNl & Htv & HkN & _).
  pose proof (bdf_newton F f HF HJm _ _ _ _ _ _ _ _ _ E Ho Hinv) as (Hlen & Hnew).
  pose proof (bdf_starting _ _ _ _ _ _ _ _ _ _ E Ho) as (_ & Hst & _).
  rewrite !Nat2Z.id in * . cbv zeta in * . change (Rmin dt (t1 - t0)) with h in Htv, Hnew. rewrite Ly in Hlen, Hnew. fold ys in HNl, Hlen, Hnew, Hst.
  split; [exact HNl|]. split; [intros i Hi; apply Htv; rewrite <- HNl; exact Hi|]. split; [exact Hlen|]. split.
  { intros j Hj. unfold yval. rewrite <- (firstn_skipn (S k) ys). rewrite Hst, app_nth1 by (rewrite repeat_length; lia). apply nth_repeat_lt. lia. }
  intros j p Hj Hji Hp. destruct (Hnew j Hj) as (xs & es & Hit & (Hes & _) & Hyl & _ & Hlast).
  assert (Hstep : bdf_newton_step F n k f (t0 + INR j * h) h ys j (nth (length es - 1) xs []) (yval ys j) (last es [])).
  { rewrite Hyl. destruct Hit as (L1 & _ & Hc). rewrite !last_nth, L1. replace (S (length es) - 1)%nat with (S (length es - 1)) by lia. apply Hc. lia. }
  set (t := t0 + INR j * h) in * . assert (Htj : t0 <= t <= t1) by (split; [unfold t; pose proof (pos_INR j); nra|exact Hji]).
  pose proof Hstep as (Q1 & Q2 & Q3 & J & Q4 & Q5 & Q6 & _).
  apply (newton_defect F n k f t t0 t1 h ys j (nth (length es - 1) xs []) (yval ys j) (last es []) L (1 / 10000000000) Hl); try exact Hstep; try lra; try exact Hp.
  - intros J' HJ' Jr Jc. exact (HJb t (nth (length es - 1) xs []) J' HJ' Jr Jc).
  - intros p' Hp'. left. eapply Rle_lt_trans; [|exact Hlast]. apply (proj1 (exact_norminf (last es []))). unfold ventry. apply nth_In. lia.
Qed.

Theorem bdf_dependence k n L T : (1 <= k <= 6)%nat -> 0 <= L -> 0 < T ->
  exists h0 C, 0 < h0 /\ 0 <= C /\
  forall f g t0 t1 e de, t1 - t0 = T -> lipschitz_in n L t0 t1 f -> lipschitz_in n L t0 t1 g -> 0 <= e -> 0 <= de ->
  (forall t y q, t0 <= t <= t1 -> length y = n -> (q < n)%nat -> Rabs (ventry (f t y) q - ventry (g t y) q) <= de) ->
  forall (L1 : LinAlg R) (P1 : ExactProducts L1) (X1 : ExactSolve L1) (N1 : ExactNorm L1) (E1 : Env R) (S1 : Type) (F : functor R S1)
    (L2 : LinAlg R) (P2 : ExactProducts L2) (X2 : ExactSolve L2) (N2 : ExactNorm L2) (E2 : Env R) (S2 : Type) (G : functor R S2),
  computes F f -> jac_matrices F -> computes G g -> jac_matrices G ->
  (forall t y J, jac_answers F t y J -> nrows J = n -> ncols J = n -> forall p q, (p < n)%nat -> (q < n)%nat -> Rabs (mentry J p q) <= L) ->
  (forall t y J, jac_answers G t y J -> nrows J = n -> ncols J = n -> forall p q, (p < n)%nat -> (q < n)%nat -> Rabs (mentry J p q) <= L) ->
  forall dt fu1 y w1 w1' r1 fu2 z w2 w2' r2, length y = n -> length z = n -> 0 < dt -> Rmin dt (t1 - t0) <= h0 ->
  @bdf R RScalar L1 E1 S1 fu1 F t0 t1 y (Z.of_nat k) dt w1 = (w1', Ok r1) ->
  @bdf R RScalar L2 E2 S2 fu2 G t0 t1 z (Z.of_nat k) dt w2 = (w2', Ok r2) ->
  (forall q, (q < n)%nat -> Rabs (ventry y q - ventry z q) <= e) ->
  forall i q, (i < length (bo_y_vals r1))%nat -> (i < length (bo_y_vals r2))%nat -> nth i (bo_t_vals r1) 0 <= t1 -> (q < n)%nat ->
  nth i (bo_t_vals r2) 0 = nth i (bo_t_vals r1) 0 /\
  Rabs (ventry (nth i (bo_y_vals r1) []) q - ventry (nth i (bo_y_vals r2) []) q) <= C * (e + de + 1 / 10000000000).
Proof.
  intros Hk HL T0. destruct (Nat.eq_dec n 0) as [->|Hn0]; [exists 1, 0; split; [lra|]; split; [lra|]; intros; lia|].
  assert (n0 : 1 <= INR n) by (replace 1 with (INR 1) by reflexivity; apply le_INR; lia).
  set (b := bdf_beta k). assert (Hb : 0 < b <= 1) by (apply bdf_beta_bounds; exact Hk).
  set (c2 := 2 * (b * ((1 + INR n) * L))). assert (C2 : 0 <= c2) by (unfold c2; assert (0 <= (1 + INR n) * L) by nra; nra).
  set (A := 24 * (7 * 6 + T * (b + c2))). assert (A0 : 0 <= A) by (unfold A; assert (0 <= T * (b + c2)) by nra; lra).
  exists (/ (24 * (b * L) + 2 * (INR n * L) + 1)), (A * exp (24 * (b * L) * T)).
  assert (D0 : 0 < 24 * (b * L) + 2 * (INR n * L) + 1) by (assert (0 <= b * L) by nra; assert (0 <= INR n * L) by nra; lra).
  split; [apply Rinv_0_lt_compat; exact D0|]. split; [pose proof (exp_pos (24 * (b * L) * T)); nra|].
  intros f g t0 t1 e0 de HT Hlf Hlg He0 Hde Hfg LA1 P1 X1 N1 E1 S1 F LA2 P2 X2 N2 E2 S2 G HF HFm HG HGm HJF HJG dt fu1 y w1 w1' r1 fu2 z w2 w2' r2 Ly Lz Hdt Hh0 R1 R2 Hyz i q Hi Hi2 Hti Hq.
  assert (Ht : t0 < t1) by lra. set (h := Rmin dt (t1 - t0)) in * .
  assert (Hh : 0 < h) by (unfold h; apply Rmin_glb_lt; lra).
  assert (HD : h * (24 * (b * L) + 2 * (INR n * L) + 1) <= 1).
  { apply Rmult_le_reg_r with (/ (24 * (b * L) + 2 * (INR n * L) + 1)); [apply Rinv_0_lt_compat; exact D0|]. rewrite Rmult_assoc, Rinv_r by lra. lra. }
  assert (Hbl : 0 <= b * L) by (apply Rmult_le_pos; lra). assert (Hnl : 0 <= INR n * L) by (apply Rmult_le_pos; lra).
  assert (Hhb : 0 <= h * (b * L)) by (apply Rmult_le_pos; lra). assert (Hhn : 0 <= h * (INR n * L)) by (apply Rmult_le_pos; lra).
  assert (Ha : 12 * (b * L) * h <= 1 / 2) by lra.
  assert (HD' : h * (2 * (INR n * L)) <= 1) by lra.
  destruct (bdf_run_facts k n f t0 t1 L LA1 P1 X1 N1 E1 S1 F fu1 y dt w1 w1' r1 Hk Ht HL ltac:(lia) Hlf HF HFm Ly HJF Hdt HD' R1) as (NA & TA & LAs & SA & RA).
  destruct (bdf_run_facts k n g t0 t1 L LA2 P2 X2 N2 E2 S2 G fu2 z dt w2 w2' r2 Hk Ht HL ltac:(lia) Hlg HG HGm Lz HJG Hdt HD' R2) as (NB & TB & LB & SB & RB).
  cbv zeta in * . fold h in TA, RA, TB, RB. set (ys := bo_y_vals r1) in * . set (zs := bo_y_vals r2) in * .
  split; [rewrite TA, TB by assumption; reflexivity|]. change (nth i ys []) with (yval ys i). change (nth i zs []) with (yval zs i).
  assert (Hle : forall j, (j <= i)%nat -> t0 + INR j * h <= t1).
  { intros j Hj. rewrite (TA i Hi) in Hti. pose proof (le_INR _ _ Hj). nra. }
  set (er := fun p j => ventry (yval ys j) p - ventry (yval zs j) p).
  set (eps := 1 / 10000000000) in * . assert (Hep : 0 < eps) by (unfold eps; lra).
  pose (e := fun j => proj1_sig (constructive_indefinite_description _ (finite_max n (fun p => er p j)))).
  assert (He : forall j, 0 <= e j /\ (forall p, (p < n)%nat -> Rabs (er p j) <= e j) /\ (e j = 0 \/ exists p, (p < n)%nat /\ e j = Rabs (er p j))).
  { intros j. unfold e. destruct (constructive_indefinite_description _ _) as (x & Hx). exact Hx. }
  assert (U0 : forall p j, (p < n)%nat -> (j <= k)%nat -> Rabs (conv (bdf_v k) (diff (er p)) j) <= 6 * e0).
  { intros p j Hp Hj. eapply Rle_trans; [apply (conv_bound _ _ e0); [exact He0|]|apply Rmult_le_compat_r; [exact He0|apply bdf_v_norm; exact Hk]].
    intros [|m] Hm'; cbn [diff]; unfold er.
    - rewrite (SA O ltac:(lia)), (SB O ltac:(lia)). apply Hyz, Hp.
    - rewrite (SA (S m) ltac:(lia)), (SA m ltac:(lia)), (SB (S m) ltac:(lia)), (SB m ltac:(lia)). replace (_ - _ - (_ - _)) with 0 by ring. rewrite Rabs_R0. exact He0. }
  assert (U1 : forall p j, (p < n)%nat -> (k < j <= i)%nat -> Rabs (conv (bdf_v k) (diff (er p)) j) <= h * (b * (L * e j) + (b * de + c2 * eps))).
  { intros p j Hp (Hj & Hji). set (t := t0 + INR j * h). assert (Htj : t0 <= t <= t1) by (split; [unfold t; pose proof (pos_INR j); nra|apply Hle; exact Hji]).
    pose proof (RA j p ltac:(lia) (Hle j Hji) Hp) as Q1. pose proof (RB j p ltac:(lia) (Hle j Hji) Hp) as Q2. fold t b in Q1, Q2.
    assert (Q3 : Rabs (ventry (f t (yval ys j)) p - ventry (f t (yval zs j)) p) <= L * e j).
    { apply (Hlf t); [exact Htj|apply LAs; lia|apply LB; lia|intros q' Hq'; apply (proj1 (proj2 (He j))); exact Hq'|exact Hp]. }
    assert (Q4 : Rabs (ventry (f t (yval zs j)) p - ventry (g t (yval zs j)) p) <= de) by (apply Hfg; [exact Htj|apply LB; lia|exact Hp]).
    rewrite bdf_v_conv by lia.
    replace (er p j + _) with (bdf_residual k f t h ys j (yval ys j) p - bdf_residual k g t h zs j (yval zs j) p
       + h * b * ((ventry (f t (yval ys j)) p - ventry (f t (yval zs j)) p) + (ventry (f t (yval zs j)) p - ventry (g t (yval zs j)) p))).
    2:{ unfold bdf_residual. fold b. unfold er at 1.
        rewrite (Rsum_ext k (fun j0 => bdf_weight k j0 * er p (j - 1 - j0)%nat) (fun j0 => bdf_weight k j0 * ventry (yval ys (j - 1 - j0)) p - bdf_weight k j0 * ventry (yval zs (j - 1 - j0)) p)) by (intros; unfold er; ring).
        rewrite Rsum_minus. ring. }
    eapply Rle_trans; [apply Rabs_triang|]. replace (h * (b * (L * e j) + (b * de + c2 * eps))) with (h * (b * ((1 + INR n) * L * eps)) + h * (b * ((1 + INR n) * L * eps)) + h * b * (L * e j + de)) by (unfold c2; ring).
    apply Rplus_le_compat.
    - unfold Rminus at 1. eapply Rle_trans; [apply Rabs_triang|]. rewrite Rabs_Ropp. apply Rplus_le_compat; assumption.
    - rewrite Rabs_mult, (Rabs_pos_eq (h * b)) by nra. apply Rmult_le_compat_l; [nra|]. eapply Rle_trans; [apply Rabs_triang|]. apply Rplus_le_compat; assumption. }
  set (z0 := e0 + de + eps). assert (Hz0 : 0 <= z0) by (unfold z0; lra).
  assert (Gr : forall j, (j <= i)%nat -> e j <= A * z0 + 24 * (b * L) * h * Rsum j e).
  { intros j Hj. assert (P0 : 0 <= 12 * (b * L) * h) by lra.
    assert (P2' : 0 <= Rsum (S j) e) by (apply Rsum_nonneg; intros; apply He). assert (P3 : 0 <= A * z0) by (apply Rmult_le_pos; assumption).
    assert (X : e j <= A / 2 * z0 + 12 * (b * L) * h * Rsum (S j) e).
    { assert (P4 : 0 <= 12 * (b * L) * h * Rsum (S j) e) by (apply Rmult_le_pos; assumption).
      destruct (proj2 (proj2 (He j))) as [-> |(p & Hp & Ee)]; [lra|]. rewrite Ee at 1.
      assert (Q0 : 0 <= b * de + c2 * eps) by (apply Rplus_le_le_0_compat; apply Rmult_le_pos; lra).
      eapply Rle_trans; [apply (bdf_zero_stable k (er p) j Hk)|].
      apply Rle_trans with (12 * (7 * (6 * e0) + (h * (b * L) * Rsum (S j) e + INR j * (h * (b * de + c2 * eps))))).
      - apply Rmult_le_compat_l; [lra|]. unfold total.
        apply Rle_trans with (Rsum (S j) (fun m => (if (m <=? k)%nat then 6 * e0 else 0) + (h * (b * L) * e m + (if (m <=? k)%nat then 0 else h * (b * de + c2 * eps))))).
        + apply Rsum_le. intros m Hm'. destruct (Nat.leb_spec m k) as [Hmk|Hmk].
          * pose proof (U0 p m Hp Hmk). pose proof (proj1 (He m)). assert (0 <= h * (b * L) * e m) by (apply Rmult_le_pos; assumption). lra.
          * pose proof (U1 p m Hp ltac:(lia)). lra.
        + rewrite !Rsum_plus, Rsum_scal. apply Rplus_le_compat; [|apply Rplus_le_compat_l].
          * eapply Rle_trans; [apply sum_first; lra|]. apply Rmult_le_compat_r; [lra|]. replace 7 with (INR 7) by (cbn; lra). apply le_INR. lia.
          * apply sum_rest. apply Rmult_le_pos; lra.
      - assert (INR j * h <= T) by (specialize (Hle j Hj); lra).
        assert (INR j * h * (b * de + c2 * eps) <= T * (b * de + c2 * eps)) by (apply Rmult_le_compat_r; assumption).
        assert (T * (b * de + c2 * eps) <= T * ((b + c2) * z0)).
        { apply Rmult_le_compat_l; [lra|]. unfold z0. assert (0 <= b * (e0 + eps)) by (apply Rmult_le_pos; lra). assert (0 <= c2 * (e0 + de)) by (apply Rmult_le_pos; lra). lra. }
        assert (A / 2 * z0 = 12 * (42 * z0 + T * ((b + c2) * z0))) by (unfold A; field). assert (e0 <= z0) by (unfold z0; lra). lra. }
    cbn [Rsum] in X. pose proof (proj1 (He j)). assert (12 * (b * L) * h * e j <= 1 / 2 * e j) by (apply Rmult_le_compat_r; lra). lra. }
  fold (er q i). eapply Rle_trans; [apply (proj1 (proj2 (He i))); exact Hq|].
  eapply Rle_trans; [apply (sum_gronwall i (24 * (b * L) * h) (A * z0) e); [lra|apply Rmult_le_pos; assumption|exact Gr|lia]|].
  apply Rle_trans with (A * z0 * exp (24 * (b * L) * T)); [|right; fold z0; ring]. apply Rmult_le_compat_l; [apply Rmult_le_pos; assumption|]. apply exp_mono.
  rewrite Rmult_assoc. apply Rmult_le_compat_l; [lra|]. specialize (Hle i ltac:(lia)). lra.
Qed.
