(** Convergence of the BDF solver as coded: order one, and not better. *)
From Coq Require Import Reals Lra Classical ClassicalEpsilon.
From Verif Require Import Model.Base Model.Scalar Model.LinAlg Model.Newton Model.Enums Model.Options Model.Irk Model.Multistep.
From Verif Require Import Spec.Sums Spec.Observe Spec.NewtonSpec Spec.IrkSpec Spec.MultistepSpec Spec.ConvergenceSpec.
From Verif Require Import Proofs.SumsProofs Proofs.MultistepProofs Proofs.MultistepResults Proofs.MultistepOrders Proofs.Convergence Proofs.ConvergenceAb Proofs.ZeroStable Proofs.Neumann Proofs.MultistepReal.
Local Open Scope R_scope.

Lemma sum_gronwall (N : nat) (a A : R) (x : nat -> R) : 0 <= a -> 0 <= A -> (forall i, (i <= N)%nat -> x i <= A + a * Rsum i x) ->
  forall i, (i <= N)%nat -> x i <= A * exp (a * INR i).
Proof.
  intros Ha HA Hx. assert (G : forall i, (i <= N)%nat -> A + a * Rsum i x <= A * exp (a * INR i)).
  { induction i as [|i IH]; intros Hi; [cbn; rewrite Rmult_0_r, exp_0; lra|]. cbn [Rsum]. specialize (IH ltac:(lia)). pose proof (Hx i ltac:(lia)) as Hi'.
    rewrite S_INR. replace (a * (INR i + 1)) with (a * INR i + a) by ring. rewrite exp_plus. pose proof (exp_ineq1_le a) as X. pose proof (exp_pos (a * INR i)) as Y.
    apply Rle_trans with (A * exp (a * INR i) * (1 + a)); [nra|]. rewrite <- Rmult_assoc. apply Rmult_le_compat_l; nra. }
  intros i Hi. eapply Rle_trans; [apply Hx, Hi|apply G, Hi].
Qed.

Lemma sum_first k N c : 0 <= c -> Rsum N (fun m => if (m <=? k)%nat then c else 0) <= INR (S k) * c.
Proof.
  intros Hc. assert (G : Rsum N (fun m => if (m <=? k)%nat then c else 0) <= INR (Nat.min N (S k)) * c).
  { induction N as [|N IH]; [cbn; lra|]. cbn [Rsum]. destruct (Nat.leb_spec N k) as [H|H].
    - replace (Nat.min (S N) (S k)) with (S (Nat.min N (S k))) by lia. rewrite S_INR. lra.
    - replace (Nat.min (S N) (S k)) with (Nat.min N (S k)) by lia. lra. }
  eapply Rle_trans; [exact G|]. apply Rmult_le_compat_r; [exact Hc|]. apply le_INR. lia.
Qed.
Lemma sum_rest k N c : 0 <= c -> Rsum (S N) (fun m => if (m <=? k)%nat then 0 else c) <= INR N * c.
Proof.
  intros Hc. induction N as [|N IH]; [cbn; destruct k; cbn; lra|]. change (Rsum (S (S N)) ?g) with (Rsum (S N) g + g (S N)). rewrite S_INR. destruct (S N <=? k)%nat; lra.
Qed.

Lemma bdf_weights_one k : (1 <= k <= 6)%nat -> Rsum k (bdf_weight k) = -1 /\ Rsum k (fun j => bdf_weight k j * INR (S j)) = - bdf_beta k.
Proof. intros Hk. destruct k as [|[|[|[|[|[|[|k]]]]]]]; try lia; unfold bdf_weight, bdf_beta; cbn; split; lra. Qed.
Lemma bdf_beta_bounds k : (1 <= k <= 6)%nat -> 0 < bdf_beta k <= 1.
Proof. intros Hk. destruct k as [|[|[|[|[|[|[|k]]]]]]]; try lia; unfold bdf_beta; cbn; lra. Qed.

(** The residual Newton's last step leaves. *)
Lemma newton_defect {St} (F : functor R St) n k f t t0 t1 h ys i x x' e L eps :
  lipschitz_in n L t0 t1 f -> (forall J, jac_answers F t x J -> nrows J = n -> ncols J = n -> forall p q, (p < n)%nat -> (q < n)%nat -> Rabs (mentry J p q) <= L) ->
  t0 <= t <= t1 -> 0 <= h -> 0 <= bdf_beta k -> 0 <= eps -> 0 <= L -> bdf_newton_step F n k f t h ys i x x' e -> (forall p, (p < n)%nat -> Rabs (ventry e p) <= eps) ->
  forall p, (p < n)%nat -> Rabs (bdf_residual k f t h ys i x' p) <= h * (bdf_beta k * ((1 + INR n) * L * eps)).
Proof.
  intros Hl HJ Ht Hh Hb He HL (L1 & L2 & L3 & J & J1 & Jr & Jc & J2 & J3) Hs p Hp.
  assert (E : bdf_residual k f t h ys i x' p = h * (bdf_beta k * ((ventry (f t x) p - ventry (f t x') p) + Rsum n (fun q => mentry J p q * ventry e q)))).
  { pose proof (J2 p Hp) as X. unfold bdf_residual in * . rewrite (J3 p Hp). lra. }
  rewrite E, Rabs_mult, (Rabs_pos_eq h Hh). apply Rmult_le_compat_l; [exact Hh|]. rewrite Rabs_mult, (Rabs_pos_eq _ Hb). apply Rmult_le_compat_l; [exact Hb|].
  eapply Rle_trans; [apply Rabs_triang|]. replace ((1 + INR n) * L * eps) with (L * eps + INR n * (L * eps)) by ring. apply Rplus_le_compat.
  - apply (Hl t); [exact Ht|exact L1|exact L3| |exact Hp]. intros q Hq. rewrite (J3 q Hq). replace (_ - _) with (- ventry e q) by ring. rewrite Rabs_Ropp. apply Hs, Hq.
  - eapply Rle_trans; [apply Rsum_abs|]. rewrite <- Rsum_const. apply Rsum_le. intros q Hq. rewrite Rabs_mult. apply Rmult_le_compat; try apply Rabs_pos; [apply (HJ J J1 Jr Jc); assumption|apply Hs, Hq].
Qed.

(** The solution satisfies the formula up to h^2. *)
Lemma bdf_truncation n f phi t0 t1 K M k t h p : (1 <= k <= 6)%nat -> solves n f t0 t1 phi -> slopes_steady n K M t0 t1 f phi -> 0 <= h -> 0 <= M -> t0 <= t - INR k * h -> t <= t1 -> (p < n)%nat ->
  Rabs (ventry (phi t) p + Rsum k (fun j => bdf_weight k j * ventry (phi (t - INR (S j) * h)) p) - h * bdf_beta k * ventry (f t (phi t)) p)
    <= Rsum k (fun j => Rabs (bdf_weight k j)) * (M * (INR k * h) * (INR k * h)).
Proof.
  intros Hk Hs Hm Hh HM H0 H1 Hp. destruct (bdf_weights_one k Hk) as [S0 S1]. set (g := ventry (f t (phi t)) p).
  replace (_ + _ - _) with (Rsum k (fun j => bdf_weight k j * (ventry (phi (t - INR (S j) * h)) p - ventry (phi t) p + INR (S j) * h * g))).
  2:{ rewrite (Rsum_ext k (fun j => bdf_weight k j * (_ - _ + _)) (fun j => bdf_weight k j * ventry (phi (t - INR (S j) * h)) p - bdf_weight k j * ventry (phi t) p + bdf_weight k j * INR (S j) * (h * g))) by (intros; ring).
      rewrite Rsum_plus, Rsum_minus, !Rsum_scal_r, S0, S1. ring. }
  eapply Rle_trans; [apply Rsum_abs|]. rewrite <- Rsum_scal_r. apply Rsum_le. intros j Hj. rewrite Rabs_mult. apply Rmult_le_compat_l; [apply Rabs_pos|].
  assert (X : INR (S j) <= INR k) by (apply le_INR; lia). pose proof (pos_INR (S j)) as Y. assert (Z : INR (S j) * h <= INR k * h) by nra.
  rewrite <- Rabs_Ropp. replace (- _) with (ventry (phi t) p - ventry (phi (t - INR (S j) * h)) p - (t - (t - INR (S j) * h)) * g) by ring.
  eapply Rle_trans; [apply (phi_taylor n f phi t0 t1 K M Hs Hm); [lra|nra|lra|right; reflexivity|exact Hp]|].
  replace (t - (t - INR (S j) * h)) with (INR (S j) * h) by ring. assert (0 <= INR (S j) * h) by nra. apply Rmult_le_compat; nra.
Qed.

Theorem bdf_converges k n f phi t0 t1 L K M : (1 <= k <= 6)%nat -> t0 < t1 -> 0 <= L -> solves n f t0 t1 phi -> lipschitz_in n L t0 t1 f -> slopes_steady n K M t0 t1 f phi ->
  exists h0 C, 0 < h0 /\ 0 <= C /\
  forall (LA : LinAlg R) (HP : ExactProducts LA) (HX : ExactSolve LA) (HN : ExactNorm LA) (HE : Env R) (St : Type) (F : functor R St), computes F f -> jac_matrices F ->
  (forall t y J, jac_answers F t y J -> nrows J = n -> ncols J = n -> forall p q, (p < n)%nat -> (q < n)%nat -> Rabs (mentry J p q) <= L) ->
  forall fuel dt w w' sol, bdf fuel F t0 t1 (phi t0) (Z.of_nat k) dt w = (w', Ok sol) -> 0 < dt ->
  let h := Rmin dt (t1 - t0) in h <= h0 ->
  forall i q, (i < length (bo_t_vals sol))%nat -> nth i (bo_t_vals sol) 0 <= t1 -> (q < n)%nat ->
  Rabs (ventry (nth i (bo_y_vals sol) []) q - ventry (phi (nth i (bo_t_vals sol) 0)) q) <= C * (h + 1 / 10000000000).
Proof.
  intros Hk Ht HL Hs Hl Hm.
  destruct (Nat.eq_dec n 0) as [->|Hn0]; [exists 1, 0; split; [lra|]; split; [lra|]; intros; lia|].
  assert (K0 : 0 <= K). { pose proof (proj1 (Hm t0 t0 O ltac:(lra) ltac:(lra) ltac:(lia))). pose proof (Rabs_pos (ventry (f t0 (phi t0)) 0)). lra. }
  assert (M0 : 0 <= M). { pose proof (proj2 (Hm t0 t1 O ltac:(lra) ltac:(lra) ltac:(lia))) as G. rewrite (Rabs_pos_eq (t1 - t0)) in G by lra. pose proof (Rabs_pos (ventry (f t1 (phi t1)) 0 - ventry (f t0 (phi t0)) 0)). nra. }
  assert (n0 : 1 <= INR n) by (replace 1 with (INR 1) by reflexivity; apply le_INR; lia). assert (k0 : 0 <= INR k) by apply pos_INR.
  set (b := bdf_beta k). assert (Hb : 0 < b <= 1) by (apply bdf_beta_bounds; exact Hk).
  set (W := Rsum k (fun j => Rabs (bdf_weight k j))). assert (W0 : 0 <= W) by (apply Rsum_nonneg; intros; apply Rabs_pos).
  set (c1 := W * M * (INR k * INR k)). assert (C1 : 0 <= c1) by (unfold c1; assert (0 <= W * M) by nra; assert (0 <= INR k * INR k) by nra; nra).
  set (c2 := b * ((1 + INR n) * L)). assert (C2 : 0 <= c2) by (unfold c2; assert (0 <= (1 + INR n) * L) by nra; nra).
  set (T := t1 - t0). assert (T0 : 0 < T) by (unfold T; lra).
  set (A := 24 * (7 * 6 * K + T * (c1 + c2))). assert (A0 : 0 <= A) by (unfold A; assert (0 <= T * (c1 + c2)) by nra; lra).
  exists (/ (24 * (b * L) + 2 * (INR n * L) + 1)), (A * exp (24 * (b * L) * T)).
  assert (D0 : 0 < 24 * (b * L) + 2 * (INR n * L) + 1) by (assert (0 <= b * L) by nra; assert (0 <= INR n * L) by nra; lra).
  split; [apply Rinv_0_lt_compat; exact D0|]. split; [pose proof (exp_pos (24 * (b * L) * T)); nra|].
  intros LA HP HX HN HE St F HF HJm HJb fuel dt w w' sol E Hdt h Hh0 i q Hi Hti Hq.
  assert (Hh : 0 < h) by (unfold h; apply Rmin_glb_lt; lra).
  assert (HD : h * (24 * (b * L) + 2 * (INR n * L) + 1) <= 1).
  { apply Rmult_le_reg_r with (/ (24 * (b * L) + 2 * (INR n * L) + 1)); [apply Rinv_0_lt_compat; exact D0|]. rewrite Rmult_assoc, Rinv_r by lra. lra. }
  assert (Ha : 12 * (b * L) * h <= 1 / 2) by (assert (0 <= h * (INR n * L)) by (apply Rmult_le_pos; [lra|apply Rmult_le_pos; lra]); lra).
  assert (Ho : (1 <= Z.of_nat k <= 6)%Z) by lia.
  assert (Hinv : forall t y J, jac_answers F t y J -> nrows J = length (phi t0) -> ncols J = length (phi t0) -> invertible (bdf_matrix (length (phi t0)) (Rmin dt (t1 - t0) * bdf_beta (Z.to_nat (Z.of_nat k))) J)).
  { rewrite Nat2Z.id, (proj1 Hs). fold h b. intros t y J HJ Jr Jc. apply (neumann n (fun p q => h * b * mentry J p q) (1 / 2)); [lra| |apply mtab_nrows|apply mtab_ncols|].
    - intros p Hp. apply Rle_trans with (Rsum n (fun _ => h * b * L)).
      + apply Rsum_le. intros p' Hp'. rewrite Rabs_mult, (Rabs_pos_eq (h * b)) by nra. apply Rmult_le_compat_l; [nra|]. apply (HJb t y J); assumption.
      + rewrite Rsum_const. assert (0 <= INR n * L) by nra. assert (0 <= b * L) by nra. assert (h * (2 * (INR n * L)) <= 1) by nra. nra.
    - intros p q' Hp Hq'. unfold bdf_matrix. rewrite mtab_entry by assumption. reflexivity. }
  pose proof (bdf_times _ _ _ _ _ _ _ _ _ _ E Ho) as (HNl & Htv & HkN & _).
  pose proof (bdf_newton F f HF HJm _ _ _ _ _ _ _ _ _ E Ho Hinv) as (Hlen & Hnew).
  pose proof (bdf_starting _ _ _ _ _ _ _ _ _ _ E Ho) as (_ & Hst & _).
  rewrite !Nat2Z.id in * . cbv zeta in * . change (Rmin dt (t1 - t0)) with h in Htv, Hnew. rewrite (proj1 Hs) in * .
  set (ys := bo_y_vals sol) in * . set (N := length (bo_t_vals sol)) in * .
  change (nth i ys []) with (yval ys i).
  assert (Hle : forall j, (j <= i)%nat -> t0 + INR j * h <= t1).
  { intros j Hj. rewrite (Htv i Hi) in Hti. pose proof (le_INR _ _ Hj). nra. }
  assert (Hy0 : forall j, (j <= k)%nat -> yval ys j = phi t0).
  { intros j Hj. unfold yval. rewrite <- (firstn_skipn (S k) ys). rewrite Hst, app_nth1 by (rewrite repeat_length; lia). apply nth_repeat_lt. lia. }
  assert (Hlen' : forall j, (j < N)%nat -> length (yval ys j) = n) by (intros j Hj; apply Hlen; rewrite HNl; exact Hj).
  set (er := fun p j => ventry (yval ys j) p - ventry (phi (t0 + INR j * h)) p).
  set (eps := 1 / 10000000000). assert (He0 : 0 < eps) by (unfold eps; lra).
  pose (e := fun j => proj1_sig (constructive_indefinite_description _ (finite_max n (fun p => er p j)))).
  assert (He : forall j, 0 <= e j /\ (forall p, (p < n)%nat -> Rabs (er p j) <= e j) /\ (e j = 0 \/ exists p, (p < n)%nat /\ e j = Rabs (er p j))).
  { intros j. unfold e. destruct (constructive_indefinite_description _ _) as (x & Hx). exact Hx. }
  (* the right-hand sides of the error equation *)
  assert (U0 : forall p j, (p < n)%nat -> (j <= k)%nat -> (j <= i)%nat -> Rabs (conv (bdf_v k) (diff (er p)) j) <= 6 * (K * h)).
  { intros p j Hp Hj Hji. eapply Rle_trans; [apply (conv_bound _ _ (K * h)); [nra|]|apply Rmult_le_compat_r; [nra|apply bdf_v_norm; exact Hk]].
    intros [|m] Hm'; cbn [diff]; unfold er.
    - rewrite (Hy0 O ltac:(lia)). cbn [INR]. replace (t0 + 0 * h) with t0 by ring. replace (_ - _) with 0 by ring. rewrite Rabs_R0. nra.
    - rewrite (Hy0 (S m) ltac:(lia)), (Hy0 m ltac:(lia)). replace (_ - _ - (_ - _)) with (- (ventry (phi (t0 + INR (S m) * h)) p - ventry (phi (t0 + INR m * h)) p)) by ring. rewrite Rabs_Ropp.
      replace (K * h) with (K * (t0 + INR (S m) * h - (t0 + INR m * h))) by (rewrite S_INR; ring). pose proof (pos_INR m). rewrite S_INR.
      apply (phi_lip n f phi t0 t1 K M Hs Hm); [nra|nra|rewrite <- S_INR; apply Hle; lia|exact Hp]. }
  assert (U1 : forall p j, (p < n)%nat -> (k < j <= i)%nat -> Rabs (conv (bdf_v k) (diff (er p)) j) <= h * (b * (L * e j) + c1 * h + c2 * eps)).
  { intros p j Hp (Hj & Hji). destruct (Hnew j ltac:(lia)) as (xs & es & Hit & (Hes & _) & Hyl & _ & Hlast).
    assert (Hstep : bdf_newton_step F n k f (t0 + INR j * h) h ys j (nth (length es - 1) xs []) (yval ys j) (last es [])).
    { rewrite Hyl. destruct Hit as (L1 & _ & Hc). rewrite !last_nth, L1. replace (S (length es) - 1)%nat with (S (length es - 1)) by lia. apply Hc. lia. }
    set (t := t0 + INR j * h) in * . assert (Htj : t0 <= t <= t1) by (split; [unfold t; pose proof (pos_INR j); nra|apply Hle; exact Hji]).
    pose proof Hstep as (Q1 & Q2 & Q3 & J & Q4 & Q5 & Q6 & _).
    assert (R1 : Rabs (bdf_residual k f t h ys j (yval ys j) p) <= h * (b * ((1 + INR n) * L * eps))).
    { apply (newton_defect F n k f t t0 t1 h ys j (nth (length es - 1) xs []) (yval ys j) (last es []) L eps Hl); try exact Hstep; try lra; try exact Hp.
      - intros J' HJ' Jr Jc. exact (HJb t (nth (length es - 1) xs []) J' HJ' Jr Jc).
      - fold b. lra.
      - intros p' Hp'. left. eapply Rle_lt_trans; [|exact Hlast]. apply (proj1 (exact_norminf (last es []))). unfold ventry. apply nth_In. lia. }
    assert (R2 : Rabs (ventry (phi t) p + Rsum k (fun j => bdf_weight k j * ventry (phi (t - INR (S j) * h)) p) - h * b * ventry (f t (phi t)) p) <= h * (c1 * h)).
    { eapply Rle_trans; [apply (bdf_truncation n f phi t0 t1 K M k t h p Hk Hs Hm); try lra; [unfold t; assert (INR k <= INR j) by (apply le_INR; lia); nra|exact Hp]|]. fold W. unfold c1. apply Req_le. ring. }
    assert (R3 : Rabs (ventry (f t (yval ys j)) p - ventry (f t (phi t)) p) <= L * e j).
    { apply (Hl t); [exact Htj|apply Hlen'; lia|apply (proj1 Hs)|intros q' Hq'; apply (proj1 (proj2 (He j))); exact Hq'|exact Hp]. }
    rewrite bdf_v_conv by lia.
    replace (er p j + _) with (bdf_residual k f t h ys j (yval ys j) p
       - (ventry (phi t) p + Rsum k (fun j => bdf_weight k j * ventry (phi (t - INR (S j) * h)) p) - h * b * ventry (f t (phi t)) p)
       + h * b * (ventry (f t (yval ys j)) p - ventry (f t (phi t)) p)).
    2:{ unfold bdf_residual. fold b. unfold er at 1. fold t.
        rewrite (Rsum_ext k (fun j0 => bdf_weight k j0 * er p (j - 1 - j0)%nat) (fun j0 => bdf_weight k j0 * ventry (yval ys (j - 1 - j0)) p - bdf_weight k j0 * ventry (phi (t - INR (S j0) * h)) p)).
        - rewrite Rsum_minus. ring.
        - intros j0 Hj0. unfold er. replace (t - INR (S j0) * h) with (t0 + INR (j - 1 - j0) * h); [ring|]. unfold t. rewrite (S_INR j0), (minus_INR (j - 1) j0), (minus_INR j 1) by lia. cbn [INR]. ring. }
    eapply Rle_trans; [apply Rabs_triang|]. replace (h * (b * (L * e j) + c1 * h + c2 * eps)) with (h * (b * ((1 + INR n) * L * eps)) + h * (c1 * h) + h * b * (L * e j)) by (unfold c2; ring).
    apply Rplus_le_compat.
    - unfold Rminus at 1. eapply Rle_trans; [apply Rabs_triang|]. rewrite Rabs_Ropp. apply Rplus_le_compat; assumption.
    - rewrite Rabs_mult, (Rabs_pos_eq (h * b)) by nra. apply Rmult_le_compat_l; [nra|exact R3]. }
  assert (G : forall j, (j <= i)%nat -> e j <= A * (h + eps) + 24 * (b * L) * h * Rsum j e).
  { intros j Hj. assert (X : e j <= A / 2 * (h + eps) + 12 * (b * L) * h * Rsum (S j) e).
    { assert (P0 : 0 <= 12 * (b * L) * h) by (assert (0 <= b * L) by nra; nra).
      assert (P1 : 0 <= A / 2 * (h + eps) + 12 * (b * L) * h * Rsum (S j) e).
      { assert (0 <= Rsum (S j) e) by (apply Rsum_nonneg; intros; apply He). assert (0 <= A * (h + eps)) by nra. nra. }
      destruct (proj2 (proj2 (He j))) as [-> |(p & Hp & Ee)]; [exact P1|]. rewrite Ee at 1.
      eapply Rle_trans; [apply (bdf_zero_stable k (er p) j Hk)|].
      apply Rle_trans with (12 * (7 * (6 * (K * h)) + (h * (b * L) * Rsum (S j) e + INR j * h * (c1 * h + c2 * eps)))).
      - apply Rmult_le_compat_l; [lra|]. unfold total.
        apply Rle_trans with (Rsum (S j) (fun m => (if (m <=? k)%nat then 6 * (K * h) else 0) + (h * (b * L) * e m + (if (m <=? k)%nat then 0 else h * (c1 * h + c2 * eps))))).
        + apply Rsum_le. intros m Hm'. destruct (Nat.leb_spec m k) as [Hmk|Hmk].
          * pose proof (U0 p m Hp Hmk ltac:(lia)). pose proof (proj1 (He m)). assert (0 <= h * (b * L) * e m) by (repeat apply Rmult_le_pos; lra). lra.
          * pose proof (U1 p m Hp ltac:(lia)). lra.
        + rewrite !Rsum_plus, Rsum_scal. apply Rplus_le_compat; [|apply Rplus_le_compat_l].
          * eapply Rle_trans; [apply sum_first; nra|]. apply Rmult_le_compat_r; [nra|]. replace 7 with (INR 7) by (cbn; lra). apply le_INR. lia.
          * eapply Rle_trans; [apply sum_rest; apply Rmult_le_pos; [lra|nra]|]. apply Req_le. ring.
      - assert (INR j * h <= T) by (unfold T; specialize (Hle j Hj); lra). assert (0 <= c1 * h + c2 * eps) by nra.
        assert (INR j * h * (c1 * h + c2 * eps) <= T * (c1 * h + c2 * eps)) by (apply Rmult_le_compat_r; assumption).
        assert (T * (c1 * h + c2 * eps) <= T * ((c1 + c2) * (h + eps))) by (apply Rmult_le_compat_l; [lra|]; assert (0 <= c1 * eps) by (apply Rmult_le_pos; lra); assert (0 <= c2 * h) by (apply Rmult_le_pos; lra); lra).
        assert (0 <= K * eps) by (apply Rmult_le_pos; lra). unfold A. lra. }
    cbn [Rsum] in X. pose proof (proj1 (He j)). assert (12 * (b * L) * h * e j <= 1 / 2 * e j) by (apply Rmult_le_compat_r; lra). lra. }
  rewrite (Htv i Hi). fold (er q i). eapply Rle_trans; [apply (proj1 (proj2 (He i))); exact Hq|].
  eapply Rle_trans; [apply (sum_gronwall i (24 * (b * L) * h) (A * (h + eps)) e); [repeat apply Rmult_le_pos; lra|nra|exact G|lia]|].
  replace (A * exp (24 * (b * L) * T) * (h + eps)) with (A * (h + eps) * exp (24 * (b * L) * T)) by ring. apply Rmult_le_compat_l; [nra|]. apply exp_mono.
  rewrite Rmult_assoc. apply Rmult_le_compat_l; [repeat apply Rmult_le_pos; lra|]. unfold T. specialize (Hle i ltac:(lia)). lra.
Qed.

(** y' = 1: the lost starting values leave an error that never goes away. *)
Theorem bdf_not_better (LA : LinAlg R) (HP : ExactProducts LA) (HX : ExactSolve LA) (HN : ExactNorm LA) (HE : Env R) (St : Type) (F : functor R St) f c p k t0 t1 y0 fuel dt w w' sol :
  computes F f -> jac_matrices F -> (forall t y, length y = length y0 -> f t y = c) ->
  (forall t y J, jac_answers F t y J -> forall i j, (i < length y0)%nat -> (j < length y0)%nat -> mentry J i j = 0) ->
  (p < length y0)%nat -> ventry c p = 1 -> (1 <= k <= 6)%nat -> t0 < t1 -> 0 < dt ->
  bdf fuel F t0 t1 y0 (Z.of_nat k) dt w = (w', Ok sol) ->
  let h := Rmin dt (t1 - t0) in
  forall i, (k <= i < length (bo_t_vals sol))%nat ->
  exists j, (i < j + k)%nat /\ (j <= i)%nat /\ 2 / 5 * h < Rabs (ventry (nth j (bo_y_vals sol) []) p - (ventry y0 p + (nth j (bo_t_vals sol) 0 - t0))).
Proof.
  intros HF HJm Hfc HJ0 Hp Hc Hk Ht Hdt E h.
  assert (Hh : 0 < h) by (unfold h; apply Rmin_glb_lt; lra). assert (Ho : (1 <= Z.of_nat k <= 6)%Z) by lia.
  assert (Hinv : forall t y J, jac_answers F t y J -> nrows J = length y0 -> ncols J = length y0 -> invertible (bdf_matrix (length y0) (Rmin dt (t1 - t0) * bdf_beta (Z.to_nat (Z.of_nat k))) J)).
  { intros t y J HJ _ _. apply (neumann (length y0) (fun i j => Rmin dt (t1 - t0) * bdf_beta (Z.to_nat (Z.of_nat k)) * mentry J i j) 0); [lra| |apply mtab_nrows|apply mtab_ncols|].
    - intros i Hi. rewrite Rsum_0; [lra|]. intros j Hj. rewrite (HJ0 t y J HJ i j Hi Hj), Rmult_0_r, Rabs_R0. reflexivity.
    - intros i j Hi Hj. unfold bdf_matrix. rewrite mtab_entry by assumption. reflexivity. }
  pose proof (bdf_times _ _ _ _ _ _ _ _ _ _ E Ho) as (HNl & Htv & HkN & _).
  pose proof (bdf_newton F f HF HJm _ _ _ _ _ _ _ _ _ E Ho Hinv) as (Hlen & _).
  pose proof (proj2 (bdf_affine_both LA HP HX HN HE St F _ HF HJm _ _ _ _ _ _ _ _ _ E Ho Hinv (fun _ _ _ => 0) (fun _ i => ventry c i)
    ltac:(intros t y i Ly Hi; rewrite (Hfc t y Ly), Rsum_0 by (intros; ring); ring)
    (fun t y J HJ i j Hi Hj => HJ0 t y J HJ i j Hi Hj))) as Hres.
  pose proof (bdf_starting _ _ _ _ _ _ _ _ _ _ E Ho) as (_ & Hst & _).
  rewrite !Nat2Z.id in * . cbv zeta in * . change (Rmin dt (t1 - t0)) with h in Htv, Hres.
  set (ys := bo_y_vals sol) in * . set (N := length (bo_t_vals sol)) in * .
  assert (Hy0 : forall j, (j <= k)%nat -> yval ys j = y0).
  { intros j Hj. unfold yval. rewrite <- (firstn_skipn (S k) ys). rewrite Hst, app_nth1 by (rewrite repeat_length; lia). apply nth_repeat_lt. lia. }
  set (a := ventry y0 p). set (e := fun j => ventry (yval ys j) p - (a + INR j * h)).
  assert (G : forall i, (k <= i < N)%nat -> conv (bdf_v k) e i = - h * conv (bdf_v k) INR k).
  { induction i as [|i IH]; intros (H1 & H2); [lia|]. destruct (Nat.eq_dec (S i) k) as [X|X].
    - rewrite X, <- conv_scal. apply conv_local. intros m Hm. unfold e. rewrite Hy0 by lia. fold a. ring.
    - rewrite <- (IH ltac:(lia)). pose proof (bdf_v_conv k e (S i) Hk ltac:(lia)) as D. rewrite conv_diff in D.
      assert (Z : e (S i) + Rsum k (fun j => bdf_weight k j * e (S i - 1 - j)%nat) = 0); [|lra].
      rewrite <- (Hres (S i) ltac:(rewrite HNl; lia) p Hp). unfold bdf_residual, e. destruct (bdf_weights_one k Hk) as [S0 S1].
      rewrite (Hfc _ (yval ys (S i))), Hc by (apply Hlen; rewrite HNl; lia).
      rewrite (Rsum_ext k (fun j => bdf_weight k j * (ventry (yval ys (S i - 1 - j)) p - (a + INR (S i - 1 - j) * h)))
        (fun j => bdf_weight k j * ventry (yval ys (S i - 1 - j)) p - bdf_weight k j * (a + INR (S i) * h) + bdf_weight k j * INR (S j) * h)).
      + rewrite Rsum_plus, Rsum_minus, !Rsum_scal_r, S0, S1. ring.
      + intros j Hj. replace (S i - 1 - j)%nat with (S i - S j)%nat by lia. rewrite minus_INR by lia. ring. }
  intros i Hi. apply NNPP. intros Hno.
  assert (B : forall m, (i < m + length (bdf_v k))%nat -> (m <= i)%nat -> Rabs (e m) <= 2 / 5 * h).
  { rewrite (bdf_v_length k Hk). intros m H1 H2. apply Rnot_lt_le. intros H3. apply Hno. exists m. split; [exact H1|]. split; [exact H2|].
    rewrite (Htv m ltac:(lia)). change (nth m ys []) with (yval ys m). replace (a + (t0 + INR m * h - t0)) with (a + INR m * h) by ring. exact H3. }
  pose proof (conv_window (bdf_v k) e (2 / 5 * h) i ltac:(lra) B) as X. rewrite (G i Hi), Rabs_mult, Rabs_Ropp, (Rabs_pos_eq h) in X by lra.
  pose proof (bdf_v_ramp k Hk) as Y. pose proof (norm1_pos (bdf_v k)). rewrite (Rabs_pos_eq (conv _ _ _)) in X by lra. nra.
Qed.
