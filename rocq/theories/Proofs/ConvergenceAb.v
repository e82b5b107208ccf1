(** Convergence of the Adams-Bashforth solver as coded: order one, and not better. *)
From Coq Require Import Reals Lra ClassicalEpsilon.
From Verif Require Import Model.Base Model.Scalar Model.LinAlg Model.Enums Model.Options Model.Irk Model.Multistep.
From Verif Require Import Spec.Sums Spec.Observe Spec.MultistepSpec Spec.ConvergenceSpec.
From Verif Require Import Proofs.SumsProofs Proofs.MultistepProofs Proofs.MultistepResults Proofs.MultistepOrders Proofs.Convergence.
Local Open Scope R_scope.

Lemma nth_repeat_lt {X} (x d : X) m i : (i < m)%nat -> nth i (repeat x m) d = x.
Proof. intros Hi. rewrite (nth_indep _ d x) by (rewrite repeat_length; exact Hi). apply nth_repeat. Qed.

Section Sol.
Context (n : nat) (f : R -> list R -> list R) (phi : R -> list R) (t0 t1 K M : R).
Hypothesis Hs : solves n f t0 t1 phi.
Hypothesis Hm : slopes_steady n K M t0 t1 f phi.

Lemma phi_lip s t q : t0 <= s -> s <= t -> t <= t1 -> (q < n)%nat -> Rabs (ventry (phi t) q - ventry (phi s) q) <= K * (t - s).
Proof.
  intros H1 [H2| ->] H3 Hq; [|replace (_ - _) with 0 by ring; rewrite Rabs_R0; lra].
  destruct (MVT_cor2 (fun u => ventry (phi u) q) (fun u => ventry (f u (phi u)) q) s t H2 ltac:(intros c Hc; apply (proj2 Hs); [lra|exact Hq])) as (c & Hc & Hb).
  rewrite Hc, Rabs_mult, (Rabs_pos_eq (t - s)) by lra. apply Rmult_le_compat_r; [lra|]. apply (proj1 (Hm c c q ltac:(lra) ltac:(lra) Hq)).
Qed.
Lemma phi_taylor s t u q : t0 <= s -> s <= t -> t <= t1 -> (u = s \/ u = t) -> (q < n)%nat ->
  Rabs (ventry (phi t) q - ventry (phi s) q - (t - s) * ventry (f u (phi u)) q) <= M * (t - s) * (t - s).
Proof.
  intros H1 [H2| ->] H3 Hu Hq; [|destruct Hu as [-> | ->]; replace (_ - _ - _) with 0 by ring; rewrite Rabs_R0; lra].
  destruct (MVT_cor2 (fun u => ventry (phi u) q) (fun u => ventry (f u (phi u)) q) s t H2 ltac:(intros c Hc; apply (proj2 Hs); [lra|exact Hq])) as (c & Hc & Hb).
  rewrite Hc. replace (_ * (t - s) - _) with ((ventry (f c (phi c)) q - ventry (f u (phi u)) q) * (t - s)) by ring.
  rewrite Rabs_mult, (Rabs_pos_eq (t - s)) by lra. apply Rmult_le_compat_r; [lra|].
  assert (M0 : 0 <= M). { pose proof (proj2 (Hm s t q ltac:(lra) ltac:(lra) Hq)) as G. rewrite (Rabs_pos_eq (t - s)) in G by lra. pose proof (Rabs_pos (ventry (f t (phi t)) q - ventry (f s (phi s)) q)). nra. }
  eapply Rle_trans; [apply (proj2 (Hm u c q ltac:(destruct Hu; subst; lra) ltac:(lra) Hq))|]. apply Rmult_le_compat_l; [exact M0|]. apply Rabs_le. destruct Hu; subst; lra.
Qed.
End Sol.

(** A discrete Gronwall inequality, with delays. *)
Lemma delayed_gronwall (N k : nat) (a A b : R) (e : nat -> R) : 0 <= a -> 0 <= A -> 0 <= b -> (1 <= k)%nat ->
  (forall i, (i < k)%nat -> (i <= N)%nat -> e i <= A) ->
  (forall i E, (k <= i <= N)%nat -> (forall j, (j < i)%nat -> e j <= E) -> e i <= E * (1 + a) + b) ->
  forall i, (i <= N)%nat -> e i <= exp (a * INR i) * (A + INR i * b).
Proof.
  intros Ha HA Hb Hk H0 H1. assert (G : forall i, (i <= N)%nat -> forall j, (j <= i)%nat -> e j <= exp (a * INR i) * (A + INR i * b)).
  { induction i as [|i IH]; intros Hi j Hj.
    - replace j with O by lia. simpl. rewrite Rmult_0_r, exp_0. specialize (H0 O ltac:(lia) ltac:(lia)). lra.
    - assert (P : exp (a * INR i) * (A + INR i * b) * (1 + a) + b <= exp (a * INR (S i)) * (A + INR (S i) * b)).
      { rewrite S_INR. pose proof (exp_ineq1_le a) as X1. pose proof (exp_pos (a * INR i)) as X2. pose proof (pos_INR i) as X3.
        replace (a * (INR i + 1)) with (a * INR i + a) by ring. rewrite exp_plus.
        assert (X4 : 1 <= exp (a * INR i)). { rewrite <- exp_0 at 1. apply exp_mono. nra. }
        assert (X5 : 0 <= A + INR i * b) by nra.
        assert (X6 : exp (a * INR i) * (1 + a) <= exp (a * INR i) * exp a) by (apply Rmult_le_compat_l; lra).
        assert (X7 : 1 <= exp (a * INR i) * exp a) by nra.
        replace (exp (a * INR i) * exp a * (A + (INR i + 1) * b)) with (exp (a * INR i) * exp a * (A + INR i * b) + exp (a * INR i) * exp a * b) by ring.
        apply Rplus_le_compat; [|nra]. replace (exp (a * INR i) * (A + INR i * b) * (1 + a)) with (exp (a * INR i) * (1 + a) * (A + INR i * b)) by ring.
        apply Rmult_le_compat_r; lra. }
      destruct (Nat.eq_dec j (S i)) as [->|Hn].
      + destruct (Nat.lt_ge_cases (S i) k) as [L|L].
        * eapply Rle_trans; [apply H0; [exact L|exact Hi]|]. rewrite <- (Rmult_1_l A) at 1. pose proof (pos_INR (S i)). apply Rmult_le_compat; try lra; [|nra].
          rewrite <- exp_0. apply exp_mono. nra.
        * eapply Rle_trans; [apply (H1 (S i) (exp (a * INR i) * (A + INR i * b)) (conj L Hi))|exact P]. intros l Hl. apply IH; lia.
      + eapply Rle_trans; [apply (IH ltac:(lia) j ltac:(lia))|]. eapply Rle_trans; [|exact P].
        pose proof (exp_pos (a * INR i)). pose proof (pos_INR i). assert (0 <= A + INR i * b) by nra. assert (0 <= exp (a * INR i) * (A + INR i * b)) by nra. nra. }
  intros i Hi. apply (G i Hi i). lia.
Qed.

Theorem ab_converges k n f phi t0 t1 L K M : (1 <= k <= 5)%nat -> t0 < t1 -> 0 <= L -> solves n f t0 t1 phi -> lipschitz_in n L t0 t1 f -> slopes_steady n K M t0 t1 f phi ->
  exists C, 0 <= C /\
  forall (LA : LinAlg R) (HE : Env R) (St : Type) (F : functor R St), computes F f ->
  forall fuel dt w w' sol, adams_bashforth fuel F t0 t1 (phi t0) (Z.of_nat k) dt w = (w', Ok sol) ->
  forall i q, (i < length (bo_t_vals sol))%nat -> nth i (bo_t_vals sol) 0 <= t1 -> (q < n)%nat ->
  Rabs (ventry (nth i (bo_y_vals sol) []) q - ventry (phi (nth i (bo_t_vals sol) 0)) q) <= C * Rmin dt (t1 - t0).
Proof.
  intros Hk Ht HL Hs Hl Hm.
  destruct (Nat.eq_dec n 0) as [->|Hn0]; [exists 0; split; [lra|]; intros; lia|].
  set (W := Rsum k (fun j => Rabs (ab_weight k j))). assert (W0 : 0 <= W) by (apply Rsum_nonneg; intros; apply Rabs_pos).
  assert (K0 : 0 <= K). { pose proof (proj1 (Hm t0 t0 O ltac:(lra) ltac:(lra) ltac:(lia))). pose proof (Rabs_pos (ventry (f t0 (phi t0)) 0)). lra. }
  assert (M0 : 0 <= M). { pose proof (proj2 (Hm t0 t1 O ltac:(lra) ltac:(lra) ltac:(lia))) as G. rewrite (Rabs_pos_eq (t1 - t0)) in G by lra. pose proof (Rabs_pos (ventry (f t1 (phi t1)) 0 - ventry (f t0 (phi t0)) 0)). nra. }
  assert (k0 : 0 <= INR k) by apply pos_INR.
  set (B := W * L * (K * INR k) + M). assert (B0 : 0 <= B) by (unfold B; assert (0 <= K * INR k) by nra; assert (0 <= W * L) by nra; nra).
  exists (exp (W * L * (t1 - t0)) * (K * INR k + (t1 - t0) * B)). split.
  { pose proof (exp_pos (W * L * (t1 - t0))). assert (0 <= K * INR k) by nra. assert (0 <= (t1 - t0) * B) by nra. nra. }
  intros LA HE St F HF fuel dt w w' sol E i q Hi Hti Hq.
  pose proof (ab_times _ _ _ _ _ _ _ _ _ _ E) as (HN & Htv & HkN & Hend & _).
  pose proof (ab_formula _ _ HF _ _ _ _ _ _ _ _ _ E ltac:(lia)) as (Hlen & Hform).
  pose proof (ab_starting _ _ _ _ _ _ _ _ _ _ E) as (_ & _ & Hst & _).
  rewrite !Nat2Z.id in * . cbv zeta in * . rewrite (proj1 Hs) in * .
  set (h := Rmin dt (t1 - t0)) in * . set (ys := bo_y_vals sol) in * . set (N := length (bo_t_vals sol)) in * .
  assert (HN0 : (1 <= N)%nat) by lia.
  assert (Hh : 0 < h). { rewrite (Htv (N - 1)%nat ltac:(lia)) in Hend. pose proof (pos_INR (N - 1)). destruct (Rle_dec h 0); [nra|lra]. }
  change (nth i ys []) with (yval ys i).
  assert (Hle : forall j, (j <= i)%nat -> t0 + INR j * h <= t1).
  { intros j Hj. rewrite (Htv i Hi) in Hti. pose proof (le_INR _ _ Hj). nra. }
  assert (Hy0 : forall j, (j < k)%nat -> yval ys j = phi t0).
  { intros j Hj. unfold yval. rewrite <- (firstn_skipn k ys). fold ys in Hst. rewrite Hst, app_nth1 by (rewrite repeat_length; exact Hj). apply nth_repeat_lt. exact Hj. }
  assert (G : forall j, (j <= i)%nat -> forall p, (p < n)%nat -> Rabs (ventry (yval ys j) p - ventry (phi (t0 + INR j * h)) p) <= exp (W * L * h * INR j) * (K * INR k * h + INR j * (B * h * h))).
  { pose (e := fun j => proj1_sig (constructive_indefinite_description _ (finite_max n (fun p => ventry (yval ys j) p - ventry (phi (t0 + INR j * h)) p)))).
    assert (He : forall j, 0 <= e j /\ (forall p, (p < n)%nat -> Rabs (ventry (yval ys j) p - ventry (phi (t0 + INR j * h)) p) <= e j) /\ (e j = 0 \/ exists p, (p < n)%nat /\ e j = Rabs (ventry (yval ys j) p - ventry (phi (t0 + INR j * h)) p))).
    { intros j. unfold e. destruct (constructive_indefinite_description _ _) as (x & Hx). exact Hx. }
    intros j Hj p Hp. eapply Rle_trans; [apply (proj1 (proj2 (He j))); exact Hp|]. revert j Hj p Hp.
    intros j Hj _ _. apply (delayed_gronwall i k (W * L * h) (K * INR k * h) (B * h * h) e); [apply Rmult_le_pos; [nra|lra]|apply Rmult_le_pos; [nra|lra]|apply Rmult_le_pos; [nra|lra]|lia| | |exact Hj].
    - intros j' Hj' Hji. destruct (proj2 (proj2 (He j'))) as [-> |(p & Hp & ->)]; [apply Rmult_le_pos; [nra|lra]|]. rewrite (Hy0 j' Hj'), Rabs_minus_sym.
      eapply Rle_trans; [apply (phi_lip n f phi t0 t1 K M Hs Hm t0); [lra| |apply Hle; exact Hji|exact Hp]|]; [pose proof (pos_INR j'); nra|].
      assert (INR j' <= INR k) by (apply le_INR; lia). replace (t0 + INR j' * h - t0) with (INR j' * h) by ring. rewrite Rmult_assoc. apply Rmult_le_compat_l; nra.
    - intros j' E' (Hj1 & Hj2) HE'. assert (E0 : 0 <= E') by (pose proof (proj1 (He O)); specialize (HE' O ltac:(lia)); lra).
      destruct (proj2 (proj2 (He j'))) as [-> |(p & Hp & ->)]; [assert (0 <= W * L * h) by (apply Rmult_le_pos; nra); assert (0 <= B * h * h) by (apply Rmult_le_pos; nra); nra|].
      destruct (Hform j' ltac:(lia)) as (_ & Hf). rewrite (Hf p Hp), (Htv (j' - 1)%nat ltac:(lia)).
      set (s := t0 + INR (j' - 1) * h) in * . assert (Hsj : t0 + INR j' * h = s + h). { unfold s. replace j' with (S (j' - 1)) at 1 by lia. rewrite S_INR. ring. }
      assert (Hs1 : s + h <= t1) by (rewrite <- Hsj; apply Hle; lia). assert (Hs0 : t0 <= s) by (unfold s; pose proof (pos_INR (j' - 1)); nra).
      rewrite Hsj. set (g := ventry (f s (phi s)) p).
      replace (_ + _ - _) with ((ventry (yval ys (j' - 1)) p - ventry (phi s) p) + h * Rsum k (fun j0 => ab_weight k j0 * (ventry (f s (yval ys (j' - 1 - j0))) p - g)) - (ventry (phi (s + h)) p - ventry (phi s) p - (s + h - s) * g)).
      2:{ rewrite (Rsum_ext k (fun j0 => ab_weight k j0 * (ventry (f s (yval ys (j' - 1 - j0))) p - g)) (fun j0 => ab_weight k j0 * ventry (f s (yval ys (j' - 1 - j0))) p - ab_weight k j0 * g)) by (intros; ring).
          rewrite Rsum_minus, Rsum_scal_r, (ab_weights_sum k Hk). ring. }
      assert (X1 : Rabs (ventry (yval ys (j' - 1)) p - ventry (phi s) p) <= E') by (eapply Rle_trans; [apply (proj1 (proj2 (He (j' - 1)%nat))); exact Hp|apply HE'; lia]).
      assert (X2 : Rabs (ventry (phi (s + h)) p - ventry (phi s) p - (s + h - s) * g) <= M * h * h).
      { replace (M * h * h) with (M * (s + h - s) * (s + h - s)) by ring. apply (phi_taylor n f phi t0 t1 K M Hs Hm); first [exact Hp|left; reflexivity|lra]. }
      assert (X3 : Rabs (Rsum k (fun j0 => ab_weight k j0 * (ventry (f s (yval ys (j' - 1 - j0))) p - g))) <= W * (L * (E' + K * INR k * h))).
      { eapply Rle_trans; [apply Rsum_abs|]. unfold W. rewrite <- Rsum_scal_r. apply Rsum_le. intros j0 Hj0. rewrite Rabs_mult. apply Rmult_le_compat_l; [apply Rabs_pos|].
        apply (Hl s); [lra|apply Hlen; lia|apply (proj1 Hs)| |exact Hp]. intros p' Hp'.
        replace (_ - _) with ((ventry (yval ys (j' - 1 - j0)) p' - ventry (phi (t0 + INR (j' - 1 - j0) * h)) p') - (ventry (phi s) p' - ventry (phi (t0 + INR (j' - 1 - j0) * h)) p')) by ring.
        unfold Rminus at 1. eapply Rle_trans; [apply Rabs_triang|]. rewrite Rabs_Ropp. apply Rplus_le_compat.
        - eapply Rle_trans; [apply (proj1 (proj2 (He _))); exact Hp'|apply HE'; lia].
        - assert (Y : t0 + INR (j' - 1 - j0) * h = s - INR j0 * h) by (unfold s; rewrite (minus_INR (j' - 1) j0) by lia; ring).
          eapply Rle_trans; [apply (phi_lip n f phi t0 t1 K M Hs Hm); [pose proof (pos_INR (j' - 1 - j0)); nra|rewrite Y; pose proof (pos_INR j0); nra|lra|exact Hp']|].
          rewrite Y. replace (s - (s - INR j0 * h)) with (INR j0 * h) by ring. rewrite Rmult_assoc. apply Rmult_le_compat_l; [exact K0|]. apply Rmult_le_compat_r; [lra|]. apply le_INR; lia. }
      unfold Rminus at 1. eapply Rle_trans; [apply Rabs_triang|]. rewrite Rabs_Ropp.
      eapply Rle_trans; [apply Rplus_le_compat; [apply Rabs_triang|exact X2]|]. rewrite Rabs_mult, (Rabs_pos_eq h) by lra.
      eapply Rle_trans; [apply Rplus_le_compat_r, Rplus_le_compat; [exact X1|apply Rmult_le_compat_l; [lra|exact X3]]|]. unfold B. apply Req_le. ring. }
  rewrite (Htv i Hi) in Hti |- * . eapply Rle_trans; [apply (G i (le_n _) q Hq)|].
  assert (Hih : INR i * h <= t1 - t0) by lra. pose proof (pos_INR i) as Hi0.
  replace (exp (W * L * (t1 - t0)) * (K * INR k + (t1 - t0) * B) * h) with (exp (W * L * (t1 - t0)) * (K * INR k * h + (t1 - t0) * (B * h))) by ring.
  assert (0 <= B * h) by nra. apply Rmult_le_compat; [left; apply exp_pos| | |].
  - apply Rplus_le_le_0_compat; [apply Rmult_le_pos; nra|apply Rmult_le_pos; [exact Hi0|nra]].
  - apply exp_mono. rewrite Rmult_assoc. apply Rmult_le_compat_l; [nra|]. lra.
  - apply Rplus_le_compat_l. replace (INR i * (B * h * h)) with (INR i * h * (B * h)) by ring. apply Rmult_le_compat_r; lra.
Qed.

(** y' = t from 0: every value beyond the starting ones is too small by at least h t / 2. *)
Theorem ab_not_better (LA : LinAlg R) (HE : Env R) (St : Type) (F : functor R St) f g p k t1 y0 fuel dt w w' sol :
  computes F f -> (forall t y, length y = length y0 -> f t y = g t) ->
  (p < length y0)%nat -> ventry y0 p = 0 -> (forall t, 0 <= t <= t1 -> ventry (g t) p = t) ->
  (1 <= k <= 5)%nat -> 0 < t1 -> adams_bashforth fuel F 0 t1 y0 (Z.of_nat k) dt w = (w', Ok sol) ->
  let h := Rmin dt (t1 - 0) in
  forall i, (k <= i < length (bo_t_vals sol))%nat -> let t := nth i (bo_t_vals sol) 0 in
  t ^ 2 / 2 - ventry (nth i (bo_y_vals sol) []) p = h * t / 2 + INR (k - 1) * INR (k - 2) / 2 * h ^ 2.
Proof.
  intros HF Hfg Hp Hp0 Hg Hk Ht E h.
  pose proof (ab_times _ _ _ _ _ _ _ _ _ _ E) as (HN & Htv & HkN & Hend & Hlt).
  pose proof (ab_is_euler _ _ HF _ _ _ _ _ _ _ _ _ E ltac:(lia) g Hfg) as Hform.
  pose proof (ab_starting _ _ _ _ _ _ _ _ _ _ E) as (_ & _ & Hst & _).
  rewrite !Nat2Z.id in * . cbv zeta in * . fold h in Htv, Hform, Hlt. set (ys := bo_y_vals sol) in * . set (N := length (bo_t_vals sol)) in * .
  assert (Hh : 0 < h). { rewrite (Htv (N - 1)%nat ltac:(lia)) in Hend. pose proof (pos_INR (N - 1)). destruct (Rle_dec h 0); [nra|lra]. }
  assert (Hy0 : forall j, (j < k)%nat -> yval ys j = y0).
  { intros j Hj. unfold yval. rewrite <- (firstn_skipn k ys). fold ys in Hst. rewrite Hst, app_nth1 by (rewrite repeat_length; exact Hj). apply nth_repeat_lt. exact Hj. }
  assert (G : forall i, (k - 1 <= i < N)%nat -> ventry (yval ys i) p = h ^ 2 / 2 * (INR i * (INR i - 1) - INR (k - 1) * INR (k - 2))).
  { induction i as [|i IH]; intros (H1 & H2).
    - replace k with 1%nat by lia. rewrite Hy0 by lia. rewrite Hp0. cbn. lra.
    - destruct (Nat.eq_dec (S i) (k - 1)) as [X|X].
      + rewrite Hy0 by lia. rewrite <- X. replace (k - 2)%nat with i by lia. rewrite S_INR, Hp0. ring.
      + rewrite (Hform (S i) ltac:(lia) p Hp). replace (S i - 1)%nat with i by lia. rewrite IH by lia. rewrite Hg.
        * rewrite (Htv i ltac:(lia)), S_INR. field.
        * rewrite (Htv i ltac:(lia)). split; [pose proof (pos_INR i); nra|]. destruct Hlt as [Hlt|Hlt]; [lia|]. rewrite (Htv (N - 1)%nat ltac:(lia)) in Hlt.
          assert (INR i + 1 <= INR (N - 1)) by (rewrite <- S_INR; apply le_INR; lia). nra. }
  intros i Hi. rewrite (Htv i ltac:(lia)). change (nth i ys []) with (yval ys i). rewrite (G i ltac:(lia)). field.
Qed.
