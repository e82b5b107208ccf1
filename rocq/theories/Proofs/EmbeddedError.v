(** The difference of two formulas of the same order is small. *)
From Coq Require Import Reals Lra FunctionalExtensionality Sorting.Sorted.
From Coquelicot Require Import Coquelicot.
From Verif Require Import Model.Base Model.Scalar Model.LinAlg Model.Enums Model.Options Model.Coeffs Model.ErkCoeffs Model.Erk.
From Verif Require Import Spec.Sums Spec.Trees Spec.RkSpec Spec.Observe Spec.ErkSpec Spec.Methods Spec.ConvergenceSpec.
From Verif Require Import Proofs.SumsProofs Proofs.RVec Proofs.OrderProofs Proofs.TablesGeneric Proofs.ErkCoeffsProofs Proofs.ErkProofs Proofs.ErkRun Proofs.ErkGeneric Proofs.ErkReal Proofs.ErkTimes Proofs.ErkExact.
From Verif Require Import Proofs.OrderTheory Proofs.Convergence Proofs.ConvergenceErk.
Local Open Scope R_scope.

Section Diff.
Variables (n P : nat) (M : R) (df : list nat -> vec -> nat -> R).
Hypothesis HM : 0 <= M.
Hypothesis HP : (1 <= P)%nat.
Variables (st : nat) (a : nat -> nat -> R) (d : nat -> R).

Lemma vanishing_weights : (forall t, (vertices t <= P)%nat -> weight st a d t = 0) -> exists C, 0 <= C /\ forall y r h Z, 0 <= r -> good n P M df y r -> 0 <= h <= 1 -> stages n df st a y r h Z ->
  forall q, (q < n)%nat -> Rabs (Rsum st (fun i => d i * df [] (fun p => y p + Z i p) q)) <= C * h ^ P.
Proof.
  intros Hw. assert (HP' : P = S (P - 1)) by lia.
  destruct (slope_expansion n P M df HM st a (P - 1) ltac:(lia) (stage_expansion n P M df HM st a (P - 1) ltac:(lia))) as (C2 & HC2 & K2). rewrite <- HP' in K2.
  destruct (elem_bound n P M df HM P) as (C3 & HC3 & K3).
  set (C4 := lsum (fun t => Rabs (weight st a d t * tw t) * C3) (TL P P)).
  assert (HC4 : 0 <= C4) by (apply lsum_nonneg; intros; apply Rmult_le_pos; [apply Rabs_pos|exact HC3]).
  pose proof (bsum_pos st d) as Hb.
  exists (bsum st d * C2 + C4). split; [pose proof (Rmult_le_pos _ _ Hb HC2); lra|].
  intros y r h Z Hr Hg Hh HZ q Hq.
  set (N := lsum (fun t => h ^ (vertices t - 1) * weight st a d t * tw t * elem n df y t q) (TL P P)).
  assert (E2 : Rabs (Rsum st (fun i => d i * df [] (fun p => y p + Z i p) q) - N) <= bsum st d * (C2 * h ^ P)).
  { unfold N, weight. rewrite <- (slope_sum n df st a d), <- Rsum_minus. erewrite Rsum_ext; [|intros j _; rewrite <- Rmult_minus_distr_l; reflexivity].
    apply weighted_bound; [apply Rmult_le_pos; [exact HC2|apply pow_le; lra]|]. intros j Hj. apply (K2 y r h Z); assumption. }
  assert (E3 : Rabs N <= C4 * h ^ P).
  { unfold N. eapply Rle_trans; [apply lsum_abs|]. unfold C4. rewrite (Rmult_comm _ (h ^ P)), <- lsum_scal. apply lsum_le. intros t Ht.
    replace (h ^ (vertices t - 1) * weight st a d t * tw t * elem n df y t q) with (h ^ (vertices t - 1) * (weight st a d t * tw t) * elem n df y t q) by ring.
    assert (Hh1 : 0 <= h ^ P) by (apply pow_le; lra). pose proof (Rabs_pos (weight st a d t * tw t)).
    destruct (le_lt_dec (vertices t) P) as [Hv|Hv].
    - rewrite (Hw t Hv). rewrite !Rmult_0_l, Rmult_0_r, Rmult_0_l, Rabs_R0. rewrite Rmult_0_l, Rmult_0_r. lra.
    - rewrite !Rabs_mult. rewrite (Rabs_pos_eq (h ^ (vertices t - 1))) by (apply pow_le; lra). rewrite <- Rabs_mult, Rmult_assoc.
      apply Rmult_le_compat; [apply pow_le; lra|apply Rmult_le_pos; apply Rabs_pos|apply pow_small; [exact Hh|lia]|].
      apply Rmult_le_compat_l; [apply Rabs_pos|]. apply (K3 y r Hr Hg t Ht). exact Hq. }
  set (S_ := Rsum st _) in * . replace S_ with ((S_ - N) + N) by ring. eapply Rle_trans; [apply Rabs_triang|]. lra.
Qed.
End Diff.

Lemma good_near n P M df y x r : good n P M df y r -> small n (r / 2) (fun i => x i - y i) -> good n P M df x (r / 2).
Proof.
  intros (G1 & G2) Hx. assert (A : forall z, small n (r / 2) (fun i => z i - x i) -> small n r (fun i => z i - y i)).
  { intros z Hz i Hi. replace (z i - y i) with ((z i - x i) + (x i - y i)) by ring. eapply Rle_trans; [apply Rabs_triang|]. specialize (Hz i Hi). specialize (Hx i Hi). cbv beta in Hz, Hx. lra. }
  split; [intros l z q Hl Hq Hz; apply G1; auto|intros l z v s q Hl Hq Hz; apply G2; auto].
Qed.
Lemma good_less n P Q M df y r : (Q <= P)%nat -> good n P M df y r -> good n Q M df y r.
Proof. intros HQ (G1 & G2). split; intros; [apply G1|apply G2]; auto; lia. Qed.
Lemma order_less st a b P Q : (Q <= P)%nat -> has_order st a b P -> has_order st a b Q.
Proof. intros HQ Ho t Ht. apply Ho. lia. Qed.

(** One Runge-Kutta step from a point near the solution. *)
Lemma embedded_small m p q2 n f phi t0 t1 r : In (m, p, Some q2) explicit_orders -> 0 < r -> smooth_near q2 n r t0 t1 f phi ->
  exists h0 C, 0 < h0 /\ 0 <= C /\ forall sc, erk_get_coefficients m = Ok sc -> forall t h y y' K, t0 <= t <= t1 -> 0 <= h <= h0 ->
  (forall i, (i < n)%nat -> Rabs (ventry y i - ventry (phi t) i) <= r / 2) ->
  rk_step n (length (sc_b sc)) (mfun (sc_A sc)) (vfun (sc_b sc)) (vfun (sc_c sc)) f t h y y' K ->
  forall q, (q < n)%nat -> Rabs (ventry (embedded_difference n (length (sc_b sc)) (vfun (sc_b sc)) (vfun (sc_b2 sc)) h K) q) <= C * h ^ S q2.
Proof.
  intros Hin Hr (M & df & Hd).
  destruct (TablesFinal.erk_orders m p (Some q2) Hin) as (sc & s & Hfa).
  pose proof (ef_get _ _ _ _ _ Hfa) as Hg. destruct (dims_of sc s (ef_dims _ _ _ _ _ Hfa)) as (Ls & _).
  pose proof (ef_order2 _ _ _ _ _ Hfa) as (_ & _ & Ho2 & _).
  assert (Hp : (1 <= q2 <= p)%nat) by (simpl in Hin; repeat (destruct Hin as [Hin|Hin]; [try discriminate Hin; injection Hin as <- <- <-; lia|]); contradiction).
  assert (Hm : In m explicit_methods).
  { simpl in Hin. repeat (destruct Hin as [Hin|Hin]; [try discriminate Hin; injection Hin as <- <- <-; simpl; tauto|]). contradiction. }
  destruct (sc_facts m sc Hm Hg) as (_ & _ & Hlow & Hrow & Hb). destruct (ef_exact _ _ _ _ _ Hfa) as [Ho _]. rewrite <- Ls in Ho, Ho2. clear Ls.
  assert (HM1 : 0 <= Rmax M 1) by (apply Rle_trans with 1; [lra|apply Rmax_r]).
  set (N := length (sc_b sc)) in * . set (a := mfun (sc_A sc)) in * . set (d := fun i => vfun (sc_b2 sc) i - vfun (sc_b sc) i).
  destruct (vanishing_weights (S n) q2 (Rmax M 1) (adf df) HM1 (proj1 Hp) N a d) as (C & HC & K).
  { intros t Ht. unfold weight, d. erewrite Rsum_ext; [|intros i _; rewrite Rmult_minus_distr_r; reflexivity]. rewrite Rsum_minus.
    pose proof (Ho t ltac:(lia)) as E1. pose proof (Ho2 t Ht) as E2. unfold order_condition, weight in E1, E2. rewrite E1, E2. ring. }
  pose proof (asum_pos N a) as Ha. set (D0 := 1 + 2 * (asum N a * Rmax M 1) / r).
  assert (Hq : 0 <= asum N a * Rmax M 1 / r). { apply Rmult_le_pos; [apply Rmult_le_pos; assumption|left; apply Rinv_0_lt_compat; exact Hr]. }
  assert (HD0 : 1 <= D0) by (unfold D0; lra).
  exists (/ D0), C. split; [apply Rinv_0_lt_compat; lra|]. split; [exact HC|].
  intros sc' Hg' t h y y' KK Ht Hh Hy RK q Hq'. rewrite Hg in Hg'. injection Hg' as <-. fold N in RK |- * . fold a in RK.
  assert (Hh1 : h <= 1 /\ asum N a * Rmax M 1 * h <= r / 2).
  { assert (Hdd : h * D0 <= 1). { apply Rle_trans with (/ D0 * D0); [apply Rmult_le_compat_r; lra|]. right. field. lra. }
    unfold D0 in Hdd. assert (Hx : 0 <= h * (2 * (asum N a * Rmax M 1) / r)) by (apply Rmult_le_pos; lra). rewrite Rmult_plus_distr_l in Hdd. split; [lra|].
    assert (Hz : h * (2 * (asum N a * Rmax M 1) / r) <= 1) by lra. apply (Rmult_le_compat_r (r / 2)) in Hz; [|lra].
    replace (h * (2 * (asum N a * Rmax M 1) / r) * (r / 2)) with (asum N a * Rmax M 1 * h) in Hz by (field; lra). lra. }
  destruct (aug_step q2 n M r t0 t1 f phi df Hd N a (vfun (sc_b sc)) (vfun (sc_c sc)) t h y y' KK RK Hrow Hb) as (Z & HZ & _ & HK).
  assert (Hgood : good (S n) q2 (Rmax M 1) (adf df) (aug t y) (r / 2)).
  { apply (good_near _ _ _ _ (aug t (phi t))); [exact (aug_good q2 n M r t0 t1 f phi df Hd t Ht)|]. intros [|i] Hi; cbn [aug].
    - rewrite Rminus_diag_eq, Rabs_R0 by reflexivity. lra.
    - apply Hy. lia. }
  assert (HS : stages (S n) (adf df) N a (aug t y) (r / 2) h Z).
  { pose proof (explicit_stages_at (S n) q2 (Rmax M 1) (adf df) HM1 (proj1 Hp) N a Hlow (aug t y) (aug t y) (r / 2) h Z 0 (Rle_refl 0) Hgood (proj1 Hh)) as E.
    specialize (E ltac:(lra) ltac:(intros i _; rewrite Rminus_diag_eq, Rabs_R0 by reflexivity; lra) HZ). intros i Hi. split; [|apply E; exact Hi].
    intros u Hu. pose proof (proj1 (E i Hi) u Hu) as E1. cbv beta in E1. replace (aug t y u + Z i u - aug t y u) with (Z i u) in E1 by ring. exact E1. }
  pose proof (K (aug t y) (r / 2) h Z ltac:(lra) Hgood ltac:(lra) HS (S q) ltac:(lia)) as E. cbn [adf] in E.
  unfold embedded_difference. rewrite ventry_vt by exact Hq'. rewrite Rabs_mult, (Rabs_pos_eq h) by lra.
  replace (C * h ^ S q2) with (h * (C * h ^ q2)) by (simpl; ring). apply Rmult_le_compat_l; [lra|].
  erewrite Rsum_ext; [exact E|]. intros i Hi. cbv beta. fold (d i). f_equal.
  symmetry. apply HK; assumption.
Qed.

(** The error estimates recorded by an adaptive run. *)
Theorem erk_estimates m p q2 n f phi t0 t1 r : In (m, p, Some q2) explicit_orders -> t0 < t1 -> 0 < r -> solves n f t0 t1 phi -> smooth_near q2 n r t0 t1 f phi ->
  exists h0 C, 0 < h0 /\ 0 <= C /\
  forall (HE : Env R) (HL : LinAlg R) (HX : ExactProducts HL) (St : Type) (F : functor R St), computes F f ->
  forall fuel opts oo dt w w' sol, (ndebug = false \/ 0 < dt) -> erk_odeint fuel F t0 t1 (phi t0) opts oo m dt w = (w', Ok sol) -> eo_adaptive opts = true ->
  steps_at_most h0 (eo_t_vals sol) ->
  forall k q, (S k < length (eo_t_vals sol))%nat -> (q < n)%nat ->
  Rabs (ventry (nth (S k) (eo_err_est sol) []) q) <= C * (nth (S k) (eo_t_vals sol) 0 - nth k (eo_t_vals sol) 0) ^ S q2.
Proof.
  intros Hin Ht Hr Hs Hsm.
  assert (Hp : (1 <= q2 <= p)%nat) by (clear - Hin; simpl in Hin; repeat (destruct Hin as [Hin|Hin]; [try discriminate Hin; injection Hin as <- <- <-; lia|]); contradiction).
  assert (Hemb : In m explicit_embedded).
  { clear - Hin. simpl in Hin. repeat (destruct Hin as [Hin|Hin]; [try discriminate Hin; injection Hin as <- <- <-; simpl; tauto|]). contradiction. }
  destruct (erk_converges m p (Some q2) q2 n f phi t0 t1 r Hin Hp Ht Hr Hs Hsm) as (h0 & C0 & Hh0 & HC0 & K0).
  destruct (embedded_small m p q2 n f phi t0 t1 r Hin Hr Hsm) as (h1 & C & Hh1 & HC & K).
  set (h2 := Rmin (Rmin h0 h1) (Rmin 1 (r / (2 * (C0 + 1))))).
  assert (Hh2 : 0 < h2 /\ h2 <= h0 /\ h2 <= h1 /\ h2 <= 1 /\ C0 * h2 <= r / 2).
  { assert (Hx : 0 < r / (2 * (C0 + 1))) by (apply Rdiv_lt_0_compat; lra). unfold h2.
    pose proof (Rmin_l (Rmin h0 h1) (Rmin 1 (r / (2 * (C0 + 1))))). pose proof (Rmin_r (Rmin h0 h1) (Rmin 1 (r / (2 * (C0 + 1))))).
    pose proof (Rmin_l h0 h1). pose proof (Rmin_r h0 h1). pose proof (Rmin_l 1 (r / (2 * (C0 + 1)))) as A1. pose proof (Rmin_r 1 (r / (2 * (C0 + 1)))) as A2.
    split; [repeat apply Rmin_glb_lt; lra|]. split; [lra|]. split; [lra|]. split; [lra|].
    assert (A3 : Rmin (Rmin h0 h1) (Rmin 1 (r / (2 * (C0 + 1)))) <= r / (2 * (C0 + 1))) by lra. apply (Rmult_le_compat_l (C0 + 1)) in A3; [|lra]. replace ((C0 + 1) * (r / (2 * (C0 + 1)))) with (r / 2) in A3 by (field; lra).
    assert (0 < Rmin (Rmin h0 h1) (Rmin 1 (r / (2 * (C0 + 1))))) by (repeat apply Rmin_glb_lt; lra). lra. }
  destruct Hh2 as (H2a & H2b & H2c & H2d & H2e).
  exists h2, C. split; [exact H2a|]. split; [exact HC|].
  intros HE HL HX St F HF fuel opts oo dt w w' sol Hdt Hrun Ead Hst k q Hk Hq.
  pose proof (K0 HE HL HX St F HF fuel opts oo dt w w' sol h2 Hdt Hrun Hst ltac:(lra)) as Kc.
  assert (Hn : length (phi t0) = n) by apply Hs.
  destruct (erk_tolerance F f HF _ _ _ _ _ _ _ _ _ _ _ Hrun Ead Hemb) as (sc & Hg & Hsteps). destruct (Hsteps k Hk) as (_ & _ & KK & _ & RK & Eest). rewrite Hn in RK, Eest.
  assert (Hdt' : ndebug = false \/ (t0 < t1 /\ 0 < dt)) by (destruct Hdt; [left|right; split]; assumption).
  destruct (erk_times F _ _ _ _ _ _ _ _ _ _ _ Hdt' Hrun) as (T1 & T2 & _). rewrite Forall_forall in T2.
  cbv zeta in Eest. rewrite Eest. pose proof (sorted_nth _ T1 k Hk) as Hlt. pose proof (Hst k Hk) as Hle.
  refine (K sc Hg _ _ _ _ KK _ _ _ RK q Hq).
  - apply T2. apply nth_In. lia.
  - lra.
  - intros i Hi. eapply Rle_trans; [apply Kc; [lia|exact Hi]|]. eapply Rle_trans; [|exact H2e]. apply Rmult_le_compat_l; [exact HC0|].
    rewrite <- (pow_1 h2) at 2. apply pow_small; [lra|apply Hp].
Qed.
