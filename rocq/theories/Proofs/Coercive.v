(** Steps of coercive implicit Runge-Kutta methods whose stage equations are solved up to a defect: on problems that do not move
    away from a centre, the distance to it grows by at most a constant times the defect, whatever the step size. *)
From Coq Require Import Reals Lra.
From Verif Require Import Model.Base Model.Scalar Model.LinAlg Spec.Sums Spec.RkSpec Spec.NewtonSpec Spec.IrkSpec Spec.IrkTotalSpec Spec.StabilitySpec.
From Verif Require Import Proofs.SumsProofs Proofs.RVec Proofs.Neumann Proofs.LinearKernel Proofs.AlgStable.
Local Open Scope R_scope.

(** ** Cauchy-Schwarz *)
Lemma cauchy_poly A B C : 0 <= A -> 0 <= C -> (forall l, 0 <= A - 2 * l * B + l * l * C) -> B * B <= A * C.
Proof.
  intros HA HC H. destruct (Req_dec C 0) as [E|E].
  - subst C. assert (B = 0); [|subst; lra]. destruct (Req_dec B 0) as [E|E]; [exact E|]. exfalso. specialize (H ((A + 1) / (2 * B))).
    replace (2 * ((A + 1) / (2 * B)) * B) with (A + 1) in H by (field; exact E). lra.
  - assert (HC' : 0 < C) by lra. specialize (H (B / C)). replace (A - 2 * (B / C) * B + B / C * (B / C) * C) with (A - B * B / C) in H by (field; exact E).
    apply Rmult_le_reg_r with (/ C); [apply Rinv_0_lt_compat, HC'|]. replace (A * C * / C) with A by (field; exact E). unfold Rdiv in H. lra.
Qed.
Lemma Rsum_cauchy m (x y : nat -> R) : Rsum m (fun i => x i * y i) * Rsum m (fun i => x i * y i) <= Rsum m (fun i => x i * x i) * Rsum m (fun i => y i * y i).
Proof.
  apply cauchy_poly; try (apply Rsum_nonneg; intros; apply Rle_0_sqr). intros l.
  replace (_ - _ + _) with (Rsum m (fun i => (x i - l * y i) * (x i - l * y i))); [apply Rsum_nonneg; intros; apply Rle_0_sqr|].
  rewrite (Rsum_ext m _ (fun i => x i * x i - 2 * l * (x i * y i) + l * l * (y i * y i))) by (intros; ring). rewrite Rsum_plus, Rsum_minus, !Rsum_scal. reflexivity.
Qed.
(** two-index version *)
Definition dot2 (m n : nat) (x y : nat -> nat -> R) : R := Rsum m (fun i => Rsum n (fun p => x i p * y i p)).
Lemma dot2_pos m n x : 0 <= dot2 m n x x.
Proof. apply Rsum_nonneg. intros. apply Rsum_nonneg. intros. apply Rle_0_sqr. Qed.
Lemma dot2_cauchy m n x y : dot2 m n x y * dot2 m n x y <= dot2 m n x x * dot2 m n y y.
Proof.
  apply cauchy_poly; try apply dot2_pos. intros l.
  replace (_ - _ + _) with (dot2 m n (fun i p => x i p - l * y i p) (fun i p => x i p - l * y i p)); [apply dot2_pos|].
  unfold dot2. rewrite (Rsum_ext m _ (fun i => Rsum n (fun p => x i p * x i p) - 2 * l * Rsum n (fun p => x i p * y i p) + l * l * Rsum n (fun p => y i p * y i p))).
  - rewrite Rsum_plus, Rsum_minus, !Rsum_scal. reflexivity.
  - intros i _. rewrite <- !Rsum_scal, <- Rsum_minus, <- Rsum_plus. apply Rsum_ext. intros; ring.
Qed.
Lemma sq_le x y : 0 <= y -> x * x <= y * y -> x <= y.
Proof. intros Hy H. destruct (Rle_dec x y); [assumption|]. nra. Qed.
Lemma dot2_le m n x y : dot2 m n x y <= sqrt (dot2 m n x x) * sqrt (dot2 m n y y).
Proof.
  apply sq_le; [apply Rmult_le_pos; apply sqrt_pos|]. replace (_ * _ * (_ * _)) with ((sqrt (dot2 m n x x) * sqrt (dot2 m n x x)) * (sqrt (dot2 m n y y) * sqrt (dot2 m n y y))) by ring.
  rewrite !sqrt_sqrt by apply dot2_pos. apply dot2_cauchy.
Qed.

(** What is needed of a method: W is the inverse of A, D W is positive definite. *)
Record coercive (s : nat) (a : nat -> nat -> R) (b : nat -> R) (C : R) : Prop := {
  co_ex : exists (W : nat -> nat -> R) (D : nat -> R) (al v w be : R),
    (forall i j, (i < s)%nat -> (j < s)%nat -> Rsum s (fun k => a i k * W k j) = delta i j /\ Rsum s (fun k => W i k * a k j) = delta i j) /\
    (forall i, (i < s)%nat -> 0 <= D i <= 1) /\
    (forall x : nat -> R, al * Rsum s (fun i => x i * x i) <= Rsum s (fun i => Rsum s (fun j => D i * W i j * (x i * x j)))) /\
    Rsum s (fun i => (D i * Rsum s (W i)) * (D i * Rsum s (W i))) <= v * v /\
    Rsum s (fun i => Rsum s (fun j => W i j * W i j)) <= w * w /\
    (forall i, (i < s)%nat -> b i <= be) /\
    0 < al /\ 0 <= v /\ 0 <= w /\ be * v * w <= C * al /\ 2 * be * (w * w) <= C * C * al /\ 0 <= C;
  co_rows : Rsum s (fun i => Rsum s (fun j => a i j * a i j)) <= 1
}.

Section Step.
  Variables (s : nat) (a : nat -> nat -> R) (b : nat -> R) (C : R).
  Hypothesis HS : alg_stable s a b.
  Hypothesis HC : coercive s a b C.
  Variables (n : nat) (h : R) (y c : nat -> R) (z k : nat -> nat -> R) (d : nat -> R).
  Hypothesis Hh : 0 <= h.
  Hypothesis Hd : forall j, (j < s)%nat -> Rsum s (fun i => a i j * d i) = b j.
  Let U (i p : nat) : R := y p + z i p - c p.
  Hypothesis Hk : forall i, (i < s)%nat -> Rsum n (fun p => k i p * U i p) <= 0.
  Let del (i p : nat) : R := z i p - h * Rsum s (fun j => a i j * k j p).

  Lemma coercive_step :
    sqrt (Rsum n (fun p => (y p + Rsum s (fun i => d i * z i p) - c p) * (y p + Rsum s (fun i => d i * z i p) - c p))) <=
    sqrt (Rsum n (fun p => (y p - c p) * (y p - c p))) + C * sqrt (dot2 s n del del).
  Proof.
    destruct HC as [(W & D & al & v & w & be & HW & HD & Hco & Hv & Hw & Hbe & Hal & Hv0 & Hw0 & HC1 & HC2 & HC0) _].
    set (u := fun p => y p - c p). set (g := fun i p => Rsum s (fun j => W i j * z j p)). set (E := fun i p => Rsum s (fun j => W i j * del j p)).
    assert (Hag : forall i p, (i < s)%nat -> Rsum s (fun j => a i j * g j p) = z i p).
    { intros i p Hi. unfold g. rewrite (Rsum_ext s _ (fun j => Rsum s (fun l => a i j * W j l * z l p))) by (intros; rewrite <- Rsum_scal; apply Rsum_ext; intros; ring).
      rewrite Rsum_swap. rewrite (Rsum_ext s _ (fun l => delta i l * z l p)); [apply (delta_sum s i (fun l => z l p)), Hi|]. intros l Hl. rewrite Rsum_scal_r, (proj1 (HW i l Hi Hl)). reflexivity. }
    assert (Hg : forall i p, (i < s)%nat -> g i p = h * k i p + E i p).
    { intros i p Hi. unfold g, E, del. rewrite (Rsum_ext s (fun j => W i j * (_ - _)) (fun j => W i j * z j p - Rsum s (fun l => h * (W i j * a j l * k l p)))).
      - rewrite Rsum_minus, (Rsum_swap s s). rewrite (Rsum_ext s (fun j => Rsum s (fun i0 => h * _)) (fun l => h * (delta i l * k l p))).
        + rewrite Rsum_scal, (delta_sum s i (fun l => k l p)) by exact Hi. ring.
        + intros l Hl. rewrite Rsum_scal, Rsum_scal_r, (proj2 (HW i l Hi Hl)). reflexivity.
      - intros j Hj. rewrite Rmult_minus_distr_l. f_equal. rewrite <- !Rsum_scal. apply Rsum_ext. intros; ring. }
    assert (Hdz : forall p, Rsum s (fun i => d i * z i p) = Rsum s (fun j => b j * g j p)).
    { intros p. rewrite (Rsum_ext s (fun i => d i * z i p) (fun i => Rsum s (fun j => a i j * d i * g j p))).
      - rewrite Rsum_swap. apply Rsum_ext. intros j Hj. rewrite Rsum_scal_r, Hd by exact Hj. reflexivity.
      - intros i Hi. rewrite <- (Hag i p Hi), <- Rsum_scal. apply Rsum_ext. intros; ring. }
    assert (HU : forall i p, (i < s)%nat -> u p + 1 * Rsum s (fun j => a i j * g j p) = U i p) by (intros i p Hi; rewrite Hag by exact Hi; unfold u, U; ring).
    assert (HgU : forall i, (i < s)%nat -> Rsum n (fun p => g i p * U i p) <= Rsum n (fun p => E i p * U i p)).
    { intros i Hi. rewrite (Rsum_ext n _ (fun p => h * (k i p * U i p) + E i p * U i p)) by (intros; rewrite Hg by exact Hi; ring). rewrite Rsum_plus, Rsum_scal.
      pose proof (Rmult_le_compat_l h _ _ Hh (Hk i Hi)). lra. }
    set (NU := sqrt (dot2 s n U U)). set (NE := sqrt (dot2 s n E E)). set (Nd := sqrt (dot2 s n del del)). set (nu := sqrt (Rsum n (fun p => u p * u p))).
    assert (PU : 0 <= NU) by apply sqrt_pos. assert (PE : 0 <= NE) by apply sqrt_pos. assert (Pd : 0 <= Nd) by apply sqrt_pos. assert (Pu : 0 <= nu) by apply sqrt_pos.
    assert (QU : NU * NU = dot2 s n U U) by (apply sqrt_sqrt, dot2_pos). assert (QE : NE * NE = dot2 s n E E) by (apply sqrt_sqrt, dot2_pos). assert (Qd : Nd * Nd = dot2 s n del del) by (apply sqrt_sqrt, dot2_pos).
    assert (Qu : nu * nu = Rsum n (fun p => u p * u p)) by (apply sqrt_sqrt, Rsum_nonneg; intros; apply Rle_0_sqr).
    assert (Hbe0 : 0 <= be \/ s = 0%nat). { destruct s as [|s']; [right; reflexivity|left]. pose proof (proj1 HS 0%nat ltac:(lia)). pose proof (Hbe 0%nat ltac:(lia)). lra. }
    (* the defects bound E *)
    assert (HE : NE <= w * Nd).
    { apply sq_le; [apply Rmult_le_pos; assumption|]. replace (w * Nd * (w * Nd)) with (w * w * (Nd * Nd)) by ring. rewrite QE, Qd.
      apply Rle_trans with (Rsum s (fun i => Rsum s (fun j => W i j * W i j)) * dot2 s n del del); [|apply Rmult_le_compat_r; [apply dot2_pos|exact Hw]].
      rewrite <- Rsum_scal_r. unfold dot2 at 1. apply Rsum_le. intros i Hi. unfold dot2. rewrite (Rsum_swap s n), <- Rsum_scal. apply Rsum_le. intros p Hp. unfold E.
      apply (Rsum_cauchy s (W i) (fun j => del j p)). }
    (* the size of the stages *)
    assert (HNU : al * NU <= v * nu + NE).
    { assert (H1 : al * (NU * NU) <= NU * (v * nu + NE)).
      { rewrite QU. unfold dot2 at 1. rewrite (Rsum_swap s n), <- Rsum_scal.
        apply Rle_trans with (Rsum n (fun p => Rsum s (fun i => Rsum s (fun j => D i * W i j * (U i p * U j p))))); [apply Rsum_le; intros p _; apply (Hco (fun i => U i p))|].
        rewrite (Rsum_ext n _ (fun p => Rsum s (fun i => D i * Rsum s (W i) * u p * U i p) + Rsum s (fun i => D i * (g i p * U i p)))).
        - rewrite Rsum_plus, !(Rsum_swap n s). apply Rle_trans with (NU * (v * nu) + NU * NE); [|lra]. apply Rplus_le_compat.
          + change (Rsum s (fun j => Rsum n (fun i => D j * Rsum s (W j) * u i * U j i))) with (dot2 s n (fun i p => D i * Rsum s (W i) * u p) U). eapply Rle_trans; [apply dot2_le|]. fold NU. rewrite Rmult_comm.
            apply Rmult_le_compat_l; [exact PU|]. apply sq_le; [apply Rmult_le_pos; assumption|]. rewrite sqrt_sqrt by apply dot2_pos. replace (v * nu * (v * nu)) with (v * v * (nu * nu)) by ring. rewrite Qu.
            unfold dot2. rewrite (Rsum_ext s _ (fun i => D i * Rsum s (W i) * (D i * Rsum s (W i)) * Rsum n (fun p => u p * u p))) by (intros; rewrite <- (Rsum_scal n); apply Rsum_ext; intros; ring).
            rewrite Rsum_scal_r. apply Rmult_le_compat_r; [rewrite <- Qu; apply Rmult_le_pos; assumption|exact Hv].
          + apply Rle_trans with (dot2 s n (fun i p => D i * E i p) U).
            * unfold dot2. apply Rsum_le. intros i Hi. rewrite (Rsum_ext n (fun p => D i * E i p * U i p) (fun p => D i * (E i p * U i p))) by (intros; ring). rewrite !Rsum_scal.
              apply Rmult_le_compat_l; [apply HD, Hi|apply HgU, Hi].
            * eapply Rle_trans; [apply dot2_le|]. fold NU. rewrite Rmult_comm. apply Rmult_le_compat_l; [exact PU|]. unfold NE. apply sqrt_le_1_alt. unfold dot2. apply Rsum_le. intros i Hi. apply Rsum_le. intros p _.
              destruct (HD i Hi) as [D1 D2]. replace (D i * E i p * (D i * E i p)) with (D i * D i * (E i p * E i p)) by ring. pose proof (Rle_0_sqr (E i p)) as HEE. unfold Rsqr in HEE.
              rewrite <- (Rmult_1_l (E i p * E i p)) at 2. apply Rmult_le_compat_r; [exact HEE|]. nra.
        - intros p _. rewrite <- Rsum_plus. apply Rsum_ext. intros i Hi.
          rewrite (Rsum_ext s (fun j => D i * W i j * (U i p * U j p)) (fun j => D i * U i p * (W i j * u p + W i j * z j p))) by (intros; unfold U, u; ring).
          rewrite Rsum_scal, Rsum_plus, Rsum_scal_r. fold (g i p). change (Rsum s (fun i0 => W i i0)) with (Rsum s (W i)). ring. }
      destruct (Req_dec NU 0) as [EN|EN]; [rewrite EN, Rmult_0_r; apply Rplus_le_le_0_compat; [apply Rmult_le_pos|]; assumption|]. apply Rmult_le_reg_l with NU; [lra|]. lra. }
    (* the step *)
    assert (HN : Rsum n (fun p => (y p + Rsum s (fun i => d i * z i p) - c p) * (y p + Rsum s (fun i => d i * z i p) - c p)) <= nu * nu + 2 * (be * (NE * NU))).
    { rewrite Qu. apply Rle_trans with (Rsum n (fun p => u p * u p) + 2 * Rsum s (fun i => b i * Rsum n (fun p => g i p * U i p))).
      - rewrite (Rsum_ext s _ (fun i => Rsum n (fun p => b i * (g i p * U i p)))) by (intros; symmetry; apply Rsum_scal). rewrite Rsum_swap, <- Rsum_scal, <- Rsum_plus. apply Rsum_le. intros p _.
        pose proof (step_point s a b HS (u p) 1 (fun i => g i p)) as H. cbv beta in H. rewrite (Rsum_ext s (fun i => b i * (g i p * (u p + _))) (fun i => b i * (g i p * U i p))) in H by (intros i Hi; rewrite HU by exact Hi; reflexivity).
        rewrite Hdz. replace (y p + Rsum s (fun j => b j * g j p) - c p) with (u p + 1 * Rsum s (fun i => b i * g i p)) by (unfold u; ring). lra.
      - apply Rplus_le_compat_l. apply Rmult_le_compat_l; [lra|]. apply Rle_trans with (dot2 s n (fun i p => b i * E i p) U).
        + unfold dot2. apply Rsum_le. intros i Hi. rewrite (Rsum_ext n (fun p => b i * E i p * U i p) (fun p => b i * (E i p * U i p))) by (intros; ring). rewrite Rsum_scal.
          apply Rmult_le_compat_l; [left; apply (proj1 HS), Hi|apply HgU, Hi].
        + destruct Hbe0 as [Hb0|E0]; [|subst s; unfold dot2; cbn [Rsum]; unfold NE, dot2; cbn [Rsum]; rewrite sqrt_0; lra].
          eapply Rle_trans; [apply dot2_le|]. fold NU. rewrite <- Rmult_assoc. apply Rmult_le_compat_r; [exact PU|]. apply sq_le; [apply Rmult_le_pos; assumption|]. rewrite sqrt_sqrt by apply dot2_pos.
          replace (be * NE * (be * NE)) with (be * be * (NE * NE)) by ring. rewrite QE. unfold dot2. rewrite <- Rsum_scal. apply Rsum_le. intros i Hi. rewrite <- Rsum_scal. apply Rsum_le. intros p _.
          replace (b i * E i p * (b i * E i p)) with (b i * b i * (E i p * E i p)) by ring. apply Rmult_le_compat_r; [apply Rle_0_sqr|]. pose proof (proj1 HS i Hi). pose proof (Hbe i Hi). apply Rmult_le_compat; lra. }
    fold u in HN |- * . change (sqrt (Rsum n (fun p => (y p - c p) * (y p - c p)))) with nu. fold Nd. change (dot2 s n del del) with (dot2 s n del del).
    apply sq_le; [apply Rplus_le_le_0_compat; [exact Pu|apply Rmult_le_pos; [exact HC0|exact Pd]]|]. rewrite sqrt_sqrt by (apply Rsum_nonneg; intros; apply Rle_0_sqr).
    eapply Rle_trans; [exact HN|]. destruct Hbe0 as [Hb0|E0].
    - apply Rmult_le_reg_l with al; [exact Hal|].
      assert (S1 : be * (NE * (al * NU)) <= be * (w * Nd * (v * nu + w * Nd))).
      { apply Rmult_le_compat_l; [exact Hb0|]. apply Rmult_le_compat; [exact PE|apply Rmult_le_pos; lra|exact HE|lra]. }
      assert (S2 : be * v * w * (nu * Nd) <= C * al * (nu * Nd)) by (apply Rmult_le_compat_r; [apply Rmult_le_pos; assumption|exact HC1]).
      assert (S3 : 2 * be * (w * w) * (Nd * Nd) <= C * C * al * (Nd * Nd)) by (apply Rmult_le_compat_r; [apply Rmult_le_pos; assumption|exact HC2]).
      lra.
    - assert (NE = 0) by (unfold NE; subst s; unfold dot2; cbn [Rsum]; apply sqrt_0). rewrite H. pose proof (Rmult_le_pos _ _ HC0 Pd). pose proof (Rmult_le_pos _ _ Pu H0). pose proof (Rle_0_sqr (C * Nd)). unfold Rsqr in * . lra.
  Qed.
End Step.

(** The defect left by an iteration with a small increment: the equations were solved with the Jacobian in place of the right-hand
    side, so only the error of that replacement remains. *)
Lemma newton_defect n s a c f t h y J Y Y' e ka :
  Rsum s (fun i => Rsum s (fun j => a i j * a i j)) <= 1 -> 0 <= h ->
  (forall M, is_stage_matrix n s a h J M -> invertible M) ->
  (forall t' x x', length x = n -> length x' = n -> Rsum n (fun p => (ventry (f t' x) p - ventry (f t' x') p - Rsum n (fun q => mentry J p q * (ventry x q - ventry x' q))) * (ventry (f t' x) p - ventry (f t' x') p - Rsum n (fun q => mentry J p q * (ventry x q - ventry x' q))))
     <= ka * ka * Rsum n (fun p => (ventry x p - ventry x' p) * (ventry x p - ventry x' p))) ->
  stage_newton n s a c f t h y J false Y Y' e ->
  dot2 s n (stage_defect n s a c f t h y Y') (stage_defect n s a c f t h y Y') <= (h * ka) * (h * ka) * Rsum (length e) (fun i => ventry e i * ventry e i).
Proof.
  intros Ha Hh Hinv HJ (_ & _ & Le & HY & M & HM & _ & Hsol). specialize (Hsol (Hinv M HM)).
  set (r := fun j p => ventry (stage_slope n c f t h y Y' j) p - ventry (stage_slope n c f t h y Y j) p - Rsum n (fun q => mentry J p q * ventry e (n * j + q))).
  assert (Hdef : forall i p, (i < s)%nat -> (p < n)%nat -> stage_defect n s a c f t h y Y' i p = - h * Rsum s (fun j => a i j * r j p)).
  { intros i p Hi Hp. specialize (Hsol i p Hi Hp). rewrite (stage_row s a n h J M _ i p HM Hi Hp) in Hsol. unfold stage_defect in * . rewrite HY, Rmult_1_l.
    rewrite (Rsum_ext s (fun j => a i j * r j p) (fun j => a i j * ventry (stage_slope n c f t h y Y' j) p - a i j * ventry (stage_slope n c f t h y Y j) p - a i j * Rsum n (fun q => mentry J p q * ventry e (n * j + q)))) by (intros; unfold r; ring).
    rewrite !Rsum_minus. lra. }
  assert (Hr : forall j, (j < s)%nat -> Rsum n (fun p => r j p * r j p) <= ka * ka * Rsum n (fun q => ventry e (n * j + q) * ventry e (n * j + q))).
  { intros j Hj. pose proof (HJ (t + c j * h) (stage_point n y Y' j) (stage_point n y Y j) (vtab_length _ _) (vtab_length _ _)) as H.
    assert (Ex : forall q, (q < n)%nat -> ventry (stage_point n y Y' j) q - ventry (stage_point n y Y j) q = ventry e (n * j + q)).
    { intros q Hq. unfold stage_point. rewrite !ventry_vt by exact Hq. rewrite HY. ring. }
    rewrite (Rsum_ext n (fun p => (ventry (stage_point n y Y' j) p - _) * _) (fun q => ventry e (n * j + q) * ventry e (n * j + q))) in H by (intros q Hq; rewrite Ex by exact Hq; reflexivity).
    eapply Rle_trans; [|exact H]. right. apply Rsum_ext. intros p Hp. unfold r, stage_slope.
    rewrite (Rsum_ext n (fun q => mentry J p q * (_ - _)) (fun q => mentry J p q * ventry e (n * j + q))) by (intros q Hq; rewrite Ex by exact Hq; reflexivity). reflexivity. }
  assert (Ee : Rsum (length e) (fun i => ventry e i * ventry e i) = Rsum s (fun j => Rsum n (fun q => ventry e (n * j + q) * ventry e (n * j + q)))).
  { rewrite Le, Nat.mul_comm, Rsum_blocks. reflexivity. }
  rewrite Ee. set (NE := Rsum s (fun j => Rsum n (fun q => ventry e (n * j + q) * ventry e (n * j + q)))).
  assert (PN : 0 <= NE) by (apply Rsum_nonneg; intros; apply Rsum_nonneg; intros; apply Rle_0_sqr).
  apply Rle_trans with (h * h * (Rsum s (fun i => Rsum s (fun j => a i j * a i j)) * dot2 s n r r)).
  - unfold dot2 at 1. rewrite <- Rsum_scal_r, <- Rsum_scal. apply Rsum_le. intros i Hi. unfold dot2. rewrite (Rsum_swap s n), <- !Rsum_scal. apply Rsum_le. intros p Hp. rewrite Hdef by assumption.
    pose proof (Rsum_cauchy s (a i) (fun j => r j p)) as Hc. set (S := Rsum s (fun j => a i j * r j p)) in * .
    replace (- h * S * (- h * S)) with (h * h * (S * S)) by ring. apply Rmult_le_compat_l; [apply Rle_0_sqr|exact Hc].
  - replace (h * ka * (h * ka) * NE) with (h * h * (1 * (ka * ka * NE))) by ring. apply Rmult_le_compat_l; [apply Rle_0_sqr|].
    apply Rmult_le_compat; [apply Rsum_nonneg; intros; apply Rsum_nonneg; intros; apply Rle_0_sqr|apply dot2_pos|exact Ha|].
    unfold dot2, NE. rewrite <- Rsum_scal. apply Rsum_le. exact Hr.
Qed.
