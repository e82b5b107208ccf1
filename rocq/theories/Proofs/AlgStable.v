(** Algebraic stability (Burrage and Butcher; Crouzeix): the norm does not grow in a step of an implicit Runge-Kutta method
    applied to a dissipative problem, the linear systems of the steps are solvable, and Newton's iteration is exact on linear problems. *)
From Coq Require Import Reals Lra.
From Verif Require Import Model.Base Model.Scalar Model.LinAlg Spec.Sums Spec.RkSpec Spec.NewtonSpec Spec.IrkSpec Spec.IrkTotalSpec Spec.StabilitySpec.
From Verif Require Import Proofs.SumsProofs Proofs.RVec Proofs.Neumann Proofs.LinearKernel.
Local Open Scope R_scope.

Definition alg_matrix (a : nat -> nat -> R) (b : nat -> R) (i j : nat) : R := b i * a i j + b j * a j i - b i * b j.
Definition alg_stable (s : nat) (a : nat -> nat -> R) (b : nat -> R) : Prop :=
  (forall i, (i < s)%nat -> 0 < b i) /\ forall x : nat -> R, 0 <= Rsum s (fun i => Rsum s (fun j => alg_matrix a b i j * (x i * x j))).
(** the row vectors b^T a^m *)
Fixpoint obs_row (s : nat) (a : nat -> nat -> R) (b : nat -> R) (m k : nat) : R :=
  match m with O => b k | S m => Rsum s (fun i => obs_row s a b m i * a i k) end.
Definition observable (s : nat) (a : nat -> nat -> R) (b : nat -> R) : Prop :=
  exists Q : nat -> nat -> R, forall j k, (j < s)%nat -> (k < s)%nat -> Rsum s (fun m => Q j m * obs_row s a b m k) = delta j k.

Lemma alg_form s a b x : Rsum s (fun i => Rsum s (fun j => alg_matrix a b i j * (x i * x j))) =
  2 * Rsum s (fun i => b i * (x i * Rsum s (fun j => a i j * x j))) - Rsum s (fun i => b i * x i) * Rsum s (fun i => b i * x i).
Proof.
  rewrite (Rsum_ext s _ (fun i => Rsum s (fun j => b i * a i j * (x i * x j)) + Rsum s (fun j => b j * a j i * (x i * x j)) - Rsum s (fun j => b i * x i * (b j * x j)))).
  2:{ intros i _. rewrite <- Rsum_plus, <- Rsum_minus. apply Rsum_ext. intros j _. unfold alg_matrix. ring. }
  rewrite Rsum_minus, Rsum_plus. rewrite (Rsum_swap s s (fun i j => b j * a j i * (x i * x j))).
  rewrite (Rsum_ext s (fun j => Rsum s (fun i => b j * a j i * (x i * x j))) (fun i => Rsum s (fun j => b i * a i j * (x i * x j)))) by (intros; apply Rsum_ext; intros; ring).
  rewrite (Rsum_ext s (fun i => Rsum s (fun j => b i * x i * (b j * x j))) (fun i => b i * x i * Rsum s (fun j => b j * x j))) by (intros; apply Rsum_scal).
  rewrite Rsum_scal_r.
  rewrite (Rsum_ext s (fun i => b i * (x i * Rsum s (fun j => a i j * x j))) (fun i => Rsum s (fun j => b i * a i j * (x i * x j)))).
  2:{ intros i _. rewrite <- Rmult_assoc, <- Rsum_scal. apply Rsum_ext. intros; ring. }
  ring.
Qed.

Lemma Rsum_le_last s (g : nat -> R) : (0 < s)%nat -> (forall i, (i < s)%nat -> g i <= 0) -> Rsum s g <= g (s - 1)%nat.
Proof.
  intros Hs Hg. destruct s as [|s]; [lia|]. cbn [Rsum]. replace (S s - 1)%nat with s by lia. assert (Rsum s g <= 0); [|lra].
  apply Rle_trans with (Rsum s (fun _ => 0)); [|right; apply Rsum_0; reflexivity]. apply Rsum_le. intros i Hi. apply Hg. lia.
Qed.

Section Stable.
  Variables (s : nat) (a : nat -> nat -> R) (b : nat -> R).
  Hypothesis HS : alg_stable s a b.

  Lemma step_point y h (k : nat -> R) :
    (y + h * Rsum s (fun i => b i * k i)) * (y + h * Rsum s (fun i => b i * k i)) <= y * y + 2 * h * Rsum s (fun i => b i * (k i * (y + h * Rsum s (fun j => a i j * k j)))).
  Proof.
    pose proof (proj2 HS k) as HM. rewrite alg_form in HM.
    rewrite (Rsum_ext s (fun i => b i * (k i * (y + h * Rsum s (fun j => a i j * k j)))) (fun i => y * (b i * k i) + h * (b i * (k i * Rsum s (fun j => a i j * k j))))) by (intros; ring).
    rewrite Rsum_plus, !Rsum_scal. set (B := Rsum s (fun i => b i * k i)) in * . set (C := Rsum s (fun i => b i * (k i * Rsum s (fun j => a i j * k j)))) in * .
    pose proof (Rmult_le_pos _ _ (Rle_0_sqr h) HM) as H. unfold Rsqr in H. lra.
  Qed.

  (** the norm after one step *)
  Lemma step_norm n c f t h y y' k : rk_step n s a b c f t h y y' k ->
    norm2 n y' <= norm2 n y + 2 * h * Rsum s (fun i => b i * Rsum n (fun p => ventry (nth i k []) p * (ventry y p + h * Rsum s (fun j => a i j * ventry (nth j k []) p)))).
  Proof.
    intros (_ & _ & ->). unfold norm2.
    rewrite (Rsum_ext s (fun i => b i * Rsum n _) (fun i => Rsum n (fun p => b i * (ventry (nth i k []) p * (ventry y p + h * Rsum s (fun j => a i j * ventry (nth j k []) p)))))) by (intros; symmetry; apply Rsum_scal).
    rewrite Rsum_swap, <- Rsum_scal, <- Rsum_plus. apply Rsum_le. intros p Hp. rewrite !ventry_vt by exact Hp.
    apply (step_point (ventry y p) h (fun i => ventry (nth i k []) p)).
  Qed.

  (** ... for a linear problem; the last stage is the new state *)
  Lemma linear_contracts n c G mu t h y y' k : (0 < s)%nat -> (forall j, (j < s)%nat -> a (s - 1)%nat j = b j) -> 0 <= mu -> 0 <= h -> damped_by mu n G ->
    rk_step n s a b c (linear_rhs n G) t h y y' k -> (1 + 2 * mu * h * b (s - 1)%nat) * norm2 n y' <= norm2 n y.
  Proof.
    intros Hs Hl Hmu Hh HG Hk. pose proof (step_norm _ _ _ _ _ _ _ _ Hk) as HN. destruct Hk as (K1 & K2 & K3).
    set (u := fun i p => ventry y p + h * Rsum s (fun j => a i j * ventry (nth j k []) p)) in * .
    change (norm2 n y' <= norm2 n y + 2 * h * Rsum s (fun i => b i * Rsum n (fun p => ventry (nth i k []) p * u i p))) in HN.
    assert (Hin : forall i, (i < s)%nat -> Rsum n (fun p => ventry (nth i k []) p * u i p) <= - mu * Rsum n (fun p => u i p * u i p)).
    { intros i Hi. rewrite (Rsum_ext n _ (fun p => u i p * Rsum n (fun q => G p q * u i q))); [apply HG|].
      intros p Hp. destruct (K2 i Hi) as [_ E]. rewrite E. unfold linear_rhs. rewrite ventry_vt by exact Hp. rewrite Rmult_comm. f_equal.
      apply Rsum_ext. intros q Hq. f_equal. rewrite ventry_vt by exact Hq. reflexivity. }
    assert (Hlast : norm2 n y' = Rsum n (fun p => u (s - 1)%nat p * u (s - 1)%nat p)).
    { unfold norm2. apply Rsum_ext. intros p Hp. assert (E : ventry y' p = u (s - 1)%nat p); [|rewrite E; reflexivity].
      rewrite K3. rewrite ventry_vt by exact Hp. unfold u. f_equal. f_equal. apply Rsum_ext. intros j Hj. rewrite Hl by exact Hj. reflexivity. }
    assert (Hsum : Rsum s (fun i => b i * Rsum n (fun p => ventry (nth i k []) p * u i p)) <= - mu * (b (s - 1)%nat * norm2 n y')).
    { eapply Rle_trans; [apply Rsum_le_last; [exact Hs|]|].
      - intros i Hi. pose proof (proj1 HS i Hi) as Hb. pose proof (Hin i Hi) as H1. assert (H : 0 <= Rsum n (fun p => u i p * u i p)) by (apply Rsum_nonneg; intros; apply Rle_0_sqr).
        pose proof (Rmult_le_pos _ _ Hmu H). cbv beta. rewrite <- (Rmult_0_r (b i)). apply Rmult_le_compat_l; lra.
      - cbv beta. assert (Hs1 : (s - 1 < s)%nat) by lia. pose proof (Rmult_le_compat_l (b (s - 1)%nat) _ _ (Rlt_le _ _ (proj1 HS _ Hs1)) (Hin _ Hs1)) as H1. rewrite <- Hlast in H1. lra. }
    pose proof (Rmult_le_compat_l (2 * h) _ _ ltac:(lra) Hsum) as H2. lra.
  Qed.

  (** ** the stage equations of a dissipative linear problem have only the trivial homogeneous solution *)
  Hypothesis HO : observable s a b.
  Section Kernel.
    Variables (n : nat) (G : nat -> nat -> R) (h : R).
    Hypothesis HG : dissipative n G.
    Hypothesis Hh : 0 <= h.
    Definition slope_of (u : nat -> nat -> R) (i p : nat) : R := h * Rsum n (fun q => G p q * u i q).
    Definition kernel_of (u : nat -> nat -> R) : Prop := forall i p, (i < s)%nat -> (p < n)%nat -> u i p = Rsum s (fun j => a i j * slope_of u j p).

    Lemma sq_sum_zero m (v : nat -> R) : Rsum m (fun p => v p * v p) <= 0 -> forall p, (p < m)%nat -> v p = 0.
    Proof.
      induction m as [|m IH]; intros H p Hp; [lia|]. cbn [Rsum] in H. assert (0 <= Rsum m (fun p => v p * v p)) by (apply Rsum_nonneg; intros; apply Rle_0_sqr).
      pose proof (Rle_0_sqr (v m)) as H1. unfold Rsqr in H1. destruct (Nat.eq_dec p m) as [->|]; [|apply IH; [lra|lia]]. apply Rsqr_0_uniq. unfold Rsqr. lra.
    Qed.
    Lemma kernel_weights u : kernel_of u -> forall p, (p < n)%nat -> Rsum s (fun i => b i * slope_of u i p) = 0.
    Proof.
      intros Hu. apply sq_sum_zero. apply Rle_trans with (Rsum n (fun p => 2 * Rsum s (fun i => b i * (slope_of u i p * u i p)))).
      - apply Rsum_le. intros p Hp. pose proof (proj2 HS (fun i => slope_of u i p)) as HM. rewrite alg_form in HM.
        rewrite (Rsum_ext s _ (fun i => b i * (slope_of u i p * u i p))) in HM; [lra|]. intros i Hi. rewrite (Hu i p Hi Hp). reflexivity.
      - rewrite Rsum_scal, Rsum_swap. rewrite <- (Rmult_0_r 2). apply Rmult_le_compat_l; [lra|]. apply Rle_trans with (Rsum s (fun _ => 0)); [|right; apply Rsum_0; reflexivity].
        apply Rsum_le. intros i Hi. rewrite Rsum_scal. rewrite <- (Rmult_0_r (b i)). apply Rmult_le_compat_l; [left; apply (proj1 HS), Hi|].
        rewrite (Rsum_ext n _ (fun p => h * (u i p * Rsum n (fun q => G p q * u i q)))) by (intros; unfold slope_of; ring).
        rewrite Rsum_scal, <- (Rmult_0_r h). apply Rmult_le_compat_l; [exact Hh|]. pose proof (HG (u i)). lra.
    Qed.
    Lemma slope_mul u i p : slope_of (fun i p => Rsum s (fun j => a i j * u j p)) i p = Rsum s (fun j => a i j * slope_of u j p).
    Proof.
      unfold slope_of. rewrite (Rsum_ext n _ (fun q => Rsum s (fun j => a i j * (G p q * u j q)))) by (intros; rewrite <- Rsum_scal; apply Rsum_ext; intros; ring).
      rewrite Rsum_swap, <- Rsum_scal. apply Rsum_ext. intros j _. rewrite Rsum_scal. ring.
    Qed.
    Lemma kernel_mul u : kernel_of u -> kernel_of (fun i p => Rsum s (fun j => a i j * u j p)).
    Proof.
      intros Hu i p Hi Hp. rewrite (Rsum_ext s (fun j => a i j * slope_of _ j p) (fun j => a i j * u j p)); [reflexivity|].
      intros j Hj. rewrite slope_mul. rewrite (Hu j p Hj Hp). reflexivity.
    Qed.
    Lemma kernel_rows m : forall u, kernel_of u -> forall p, (p < n)%nat -> Rsum s (fun i => obs_row s a b m i * slope_of u i p) = 0.
    Proof.
      induction m as [|m IH]; intros u Hu p Hp; cbn [obs_row]; [exact (kernel_weights u Hu p Hp)|].
      rewrite <- (IH _ (kernel_mul u Hu) p Hp).
      rewrite (Rsum_ext s (fun i => Rsum s _ * slope_of u i p) (fun k => Rsum s (fun i => obs_row s a b m i * a i k * slope_of u k p))) by (intros; symmetry; apply Rsum_scal_r).
      rewrite Rsum_swap. apply Rsum_ext. intros i _. rewrite slope_mul, <- Rsum_scal. apply Rsum_ext. intros; ring.
    Qed.
    Lemma kernel_trivial u : kernel_of u -> forall i p, (i < s)%nat -> (p < n)%nat -> u i p = 0.
    Proof.
      intros Hu i p Hi Hp. rewrite (Hu i p Hi Hp). apply Rsum_0. intros j Hj. assert (E : slope_of u j p = 0); [|rewrite E; ring].
      destruct HO as (Q & HQ). rewrite <- (delta_sum s j (fun k => slope_of u k p)) by exact Hj.
      rewrite (Rsum_ext s _ (fun k => Rsum s (fun m => Q j m * (obs_row s a b m k * slope_of u k p)))).
      - rewrite Rsum_swap. apply Rsum_0. intros m Hm. rewrite Rsum_scal, (kernel_rows m u Hu p Hp). ring.
      - intros k Hk. rewrite <- (HQ j k Hj Hk), <- Rsum_scal_r. apply Rsum_ext. intros; ring.
    Qed.
  End Kernel.

  Lemma stage_row n h J M (x : nat -> R) i p : is_stage_matrix n s a h J M -> (i < s)%nat -> (p < n)%nat ->
    Rsum (n * s) (fun k => mentry M (n * i + p) k * x k) = x (n * i + p)%nat - h * Rsum s (fun j => a i j * Rsum n (fun q => mentry J p q * x (n * j + q)%nat)).
  Proof.
    intros HM Hi Hp. rewrite Rsum_blocks.
    rewrite (Rsum_ext s _ (fun j => delta i j * Rsum n (fun q => delta p q * x (n * j + q)%nat) - h * (a i j * Rsum n (fun q => mentry J p q * x (n * j + q)%nat)))).
    - rewrite Rsum_minus, delta_sum by exact Hi. rewrite delta_sum by exact Hp. rewrite Rsum_scal. reflexivity.
    - intros j Hj. rewrite <- !Rsum_scal, <- Rsum_minus. apply Rsum_ext. intros q Hq. rewrite (proj2 (proj2 HM)) by assumption. ring.
  Qed.
  Lemma dissipative_stage_matrix n G h J M : dissipative n G -> 0 <= h -> (forall p q, (p < n)%nat -> (q < n)%nat -> mentry J p q = G p q) ->
    is_stage_matrix n s a h J M -> invertible M.
  Proof.
    intros HG Hh HJ HM. apply (injective_invertible M (n * s)); [apply HM|apply HM|]. intros x Hx k Hk.
    destruct (block_index n s k Hk) as (i & p & Hi & Hp & ->).
    apply (kernel_trivial n G h HG Hh (fun i p => x (n * i + p)%nat)); [|exact Hi|exact Hp].
    intros i' p' Hi' Hp'. assert (Hlt : (n * i' + p' < n * s)%nat) by nia. specialize (Hx _ Hlt). rewrite (stage_row _ _ _ _ _ _ _ HM Hi' Hp') in Hx.
    unfold slope_of. rewrite (Rsum_ext s (fun j => a i' j * (h * _)) (fun j => h * (a i' j * Rsum n (fun q => mentry J p' q * x (n * j + q)%nat)))); [rewrite Rsum_scal; lra|].
    intros j Hj. rewrite (Rsum_ext n (fun q => G p' q * _) (fun q => mentry J p' q * x (n * j + q)%nat)) by (intros; rewrite HJ by assumption; reflexivity). ring.
  Qed.
End Stable.

(** the matrix of the error estimate *)
Lemma dissipative_one_minus n G J c : dissipative n G -> 0 <= c -> (forall p q, (p < n)%nat -> (q < n)%nat -> mentry J p q = G p q) -> invertible (one_minus n c J).
Proof.
  intros HG Hc HJ. apply (injective_invertible _ n); [apply mtab_nrows|apply mtab_ncols|]. intros x Hx. apply sq_sum_zero.
  assert (E : forall p, (p < n)%nat -> x p = c * Rsum n (fun q => G p q * x q)).
  { intros p Hp. specialize (Hx p Hp). rewrite (Rsum_ext n _ (fun q => delta p q * x q - c * (G p q * x q))) in Hx.
    - rewrite Rsum_minus, delta_sum, Rsum_scal in Hx by exact Hp. lra.
    - intros q Hq. unfold one_minus. rewrite mtab_entry, HJ by assumption. ring. }
  rewrite (Rsum_ext n _ (fun p => c * (x p * Rsum n (fun q => G p q * x q)))).
  - rewrite Rsum_scal, <- (Rmult_0_r c). apply Rmult_le_compat_l; [exact Hc|]. pose proof (HG x). lra.
  - intros p Hp. rewrite (E p Hp) at 2. ring.
Qed.

(** one undamped iteration solves the stage equations of a linear problem *)
Lemma newton_linear n s a c G t h y J Y Y' d : (forall p q, (p < n)%nat -> (q < n)%nat -> mentry J p q = G p q) ->
  (forall M, is_stage_matrix n s a h J M -> invertible M) -> stage_newton n s a c (linear_rhs n G) t h y J false Y Y' d ->
  forall i p, (i < s)%nat -> (p < n)%nat -> stage_defect n s a c (linear_rhs n G) t h y Y' i p = 0.
Proof.
  intros HJ Hinv (_ & _ & _ & HY & M & HM & _ & Hsol) i p Hi Hp. specialize (Hsol (Hinv M HM) i p Hi Hp). rewrite (stage_row s a n h J M _ i p HM Hi Hp) in Hsol.
  assert (Hsl : forall Z j, ventry (stage_slope n c (linear_rhs n G) t h y Z j) p = Rsum n (fun q => G p q * (ventry y q + ventry Z (n * j + q)))).
  { intros Z j. unfold stage_slope, linear_rhs. rewrite ventry_vt by exact Hp. apply Rsum_ext. intros q Hq. unfold stage_point. rewrite ventry_vt by exact Hq. reflexivity. }
  unfold stage_defect in * . rewrite HY, Rmult_1_l.
  rewrite (Rsum_ext s (fun j => a i j * ventry (stage_slope n c (linear_rhs n G) t h y Y' j) p)
     (fun j => a i j * ventry (stage_slope n c (linear_rhs n G) t h y Y j) p + a i j * Rsum n (fun q => mentry J p q * ventry d (n * j + q)))); [rewrite Rsum_plus; lra|].
  intros j _. rewrite !Hsl, <- Rmult_plus_distr_l, <- Rsum_plus. f_equal. apply Rsum_ext. intros q Hq. rewrite HY, HJ by assumption. ring.
Qed.
