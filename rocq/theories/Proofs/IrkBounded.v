(** Small steps on problems with bounded slopes and Jacobians: Newton's iteration converges at once and the error test is passed. *)
From Coq Require Import Reals Lra.
From Verif Require Import Model.Base Model.Scalar Model.LinAlg Model.Newton Model.Enums Model.Options Model.Coeffs Model.Irk Model.IrkCoeffs.
From Verif Require Import Spec.Sums Spec.Trees Spec.RkSpec Spec.Observe Spec.ErkSpec Spec.NewtonSpec Spec.IrkSpec Spec.Methods Spec.IrkTotalSpec.
From Verif Require Import Proofs.LoopProofs Proofs.SumsProofs Proofs.OrderProofs Proofs.TablesGeneric Proofs.ErkProofs Proofs.ErkReal Proofs.ErkTimes Proofs.NewtonProofs Proofs.NewtonTotal Proofs.RVec
  Proofs.IrkProofs Proofs.IrkReal Proofs.IrkStages Proofs.IrkRun Proofs.IrkGeneric Proofs.IrkResults Proofs.IrkSteps Proofs.IrkTimes Proofs.IrkExact Proofs.IrkTotal.
Local Open Scope R_scope.

Lemma max_attained (x : nat -> R) N : (0 < N)%nat -> exists k, (k < N)%nat /\ forall j, (j < N)%nat -> Rabs (x j) <= Rabs (x k).
Proof.
  induction N as [|N IH]; [lia|]. intros _. destruct N as [|N]; [exists 0%nat; split; [lia|]; intros j Hj; replace j with 0%nat by lia; lra|].
  destruct IH as (k & Hk & K); [lia|]. destruct (Rle_dec (Rabs (x k)) (Rabs (x (S N)))) as [L|L].
  - exists (S N). split; [lia|]. intros j Hj. destruct (Nat.eq_dec j (S N)) as [->|]; [lra|]. specialize (K j ltac:(lia)). lra.
  - exists k. split; [lia|]. intros j Hj. destruct (Nat.eq_dec j (S N)) as [->|]; [lra|]. apply K. lia.
Qed.
(** a perturbation of the identity that is at most 1/2 *)
Lemma dominated (x : nat -> R) N r : (forall X k, (forall j, (j < N)%nat -> Rabs (x j) <= X) -> 0 <= X -> (k < N)%nat -> Rabs (x k) <= r + 1 / 2 * X) ->
  forall k, (k < N)%nat -> Rabs (x k) <= 2 * r.
Proof.
  intros Hx k Hk. destruct (max_attained x N ltac:(lia)) as (k0 & Hk0 & K). pose proof (Hx (Rabs (x k0)) k0 K (Rabs_pos _) Hk0). specialize (K k Hk). lra.
Qed.
Lemma Rsum_bound n f b : (forall i, (i < n)%nat -> Rabs (f i) <= b) -> Rabs (Rsum n f) <= INR n * b.
Proof. intros Hb. rewrite <- Rsum_const. apply Rsum_abs_le, Hb. Qed.
Lemma Rsum_weighted n f g b : (forall i, (i < n)%nat -> Rabs (g i) <= b) -> Rabs (Rsum n (fun i => f i * g i)) <= Rsum n (fun i => Rabs (f i)) * b.
Proof. intros Hb. rewrite <- Rsum_scal_r. apply Rsum_abs_le. intros i Hi. rewrite Rabs_mult. apply Rmult_le_compat_l; [apply Rabs_pos|apply Hb, Hi]. Qed.
Lemma Rsum_abs_nonneg n f : 0 <= Rsum n (fun i => Rabs (f i)).
Proof. apply Rsum_nonneg. intros; apply Rabs_pos. Qed.

Section Bounds.
  Variables (n s : nat) (a : nat -> nat -> R) (c : nat -> R) (f : R -> list R -> list R) (t h : R) (y : list R) (B K rho : R).
  Hypothesis Hn : (0 < n)%nat.
  Hypothesis Hh : 0 < h.
  Hypothesis Ly : length y = n.
  Hypothesis Hrho : 0 <= rho.
  Hypothesis HB : forall t x p, length x = n -> (forall q, (q < n)%nat -> Rabs (ventry x q - ventry y q) <= rho) -> (p < n)%nat -> Rabs (ventry (f t x) p) <= B.
  (** the row sums of |a| *)
  Variable al : R.
  Hypothesis Hal : forall i, (i < s)%nat -> Rsum s (fun j => Rabs (a i j)) <= al.
  Hypothesis Hal0 : 0 <= al.
  Lemma B_nonneg : 0 <= B.
  Proof. assert (N : forall q, (q < n)%nat -> Rabs (ventry y q - ventry y q) <= rho) by (intros q _; rewrite Rminus_diag_eq, Rabs_R0 by reflexivity; exact Hrho). pose proof (HB 0 y 0%nat Ly N Hn). pose proof (Rabs_pos (ventry (f 0 y) 0)). lra. Qed.

  Lemma defect_part Y i p : (forall k, (k < n * s)%nat -> Rabs (ventry Y k) <= rho) -> (i < s)%nat -> (p < n)%nat -> Rabs (h * Rsum s (fun j => a i j * ventry (stage_slope n c f t h y Y j) p)) <= h * al * B.
  Proof.
    intros HY Hi Hp. rewrite Rabs_mult, (Rabs_pos_eq h) by lra. rewrite Rmult_assoc. apply Rmult_le_compat_l; [lra|].
    apply Rle_trans with (Rsum s (fun j => Rabs (a i j)) * B).
    - apply Rsum_weighted. intros j Hj. unfold stage_slope. apply HB; [unfold stage_point; apply vtab_length| |exact Hp]. intros q Hq. unfold stage_point. rewrite ventry_vt by exact Hq.
      replace (ventry y q + ventry Y (n * j + q) - ventry y q) with (ventry Y (n * j + q)) by ring. apply HY. nia.
    - apply Rmult_le_compat_r; [apply B_nonneg|apply Hal, Hi].
  Qed.
  Lemma first_step J Y' d : stage_newton n s a c f t h y J false (vzeros (s * n)) Y' d ->
    (forall M, is_stage_matrix n s a h J M -> mat_wf M -> invertible M) ->
    (forall p q, (p < n)%nat -> (q < n)%nat -> Rabs (mentry J p q) <= K) -> h * al * (INR n * K) <= 1 / 2 -> 2 * (h * al * B) <= rho ->
    (forall k, (k < n * s)%nat -> Rabs (ventry Y' k) <= 2 * (h * al * B)) /\
    forall i p, (i < s)%nat -> (p < n)%nat -> Rabs (stage_defect n s a c f t h y Y' i p) <= 3 * (h * al * B).
  Proof.
    intros (L1 & L2 & L3 & E & M & HM & Mw & Hsol) Hinv HK Hsm Hsr. specialize (Hsol (Hinv M HM Mw)). destruct HM as (Mr & Mc & ME).
    assert (Z0 : forall k, ventry (vzeros (T := R) (s * n)) k = 0). { intros k. unfold ventry, vzeros. destruct (Nat.lt_ge_cases k (s * n)) as [Lk|Lk]; [apply nth_repeat|apply nth_overflow; rewrite repeat_length; exact Lk]. }
    assert (HY : forall k, ventry Y' k = ventry d k) by (intros k; rewrite E, Z0; ring).
    assert (Hd : forall k, (k < n * s)%nat -> Rabs (ventry d k) <= 2 * (h * al * B)).
    { apply dominated. intros X k HX X0 Hk. assert (Ek : k = (n * (k / n) + k mod n)%nat) by (apply Nat.div_mod; lia). set (i := (k / n)%nat) in * . set (p := (k mod n)%nat) in * .
      assert (Hp : (p < n)%nat) by (apply Nat.mod_upper_bound; lia). assert (Hi : (i < s)%nat) by (apply Nat.div_lt_upper_bound; lia).
      specialize (Hsol i p Hi Hp). rewrite Rsum_blocks in Hsol.
      rewrite (Rsum_ext s _ (fun j => Rsum n (fun q => delta i j * delta p q * ventry d (n * j + q)) - h * (a i j * Rsum n (fun q => mentry J p q * ventry d (n * j + q))))) in Hsol.
      2: { intros j Hj. rewrite <- !Rsum_scal, <- Rsum_minus. apply Rsum_ext. intros q Hq. rewrite ME by assumption. ring. }
      rewrite Rsum_minus in Hsol. rewrite (Rsum_single s i) in Hsol; [|exact Hi|].
      2: { intros j Hj Nj. apply Rsum_0. intros q Hq. unfold delta. destruct (Nat.eq_dec i j); [congruence|ring]. }
      rewrite (Rsum_single n p) in Hsol; [|exact Hp|].
      2: { intros q Hq Nq. unfold delta. destruct (Nat.eq_dec i i); [|contradiction]. destruct (Nat.eq_dec p q); [congruence|ring]. }
      replace (delta i i * delta p p * ventry d (n * i + p)) with (ventry d (n * i + p)) in Hsol by (unfold delta; destruct (Nat.eq_dec i i), (Nat.eq_dec p p); try contradiction; ring).
      rewrite Rsum_scal in Hsol. unfold stage_defect in Hsol. rewrite Z0 in Hsol.
      pose proof (defect_part (vzeros (s * n)) i p ltac:(intros k' _; rewrite Z0, Rabs_R0; exact Hrho) Hi Hp) as D1. set (g := h * Rsum s (fun j => a i j * ventry (stage_slope n c f t h y (vzeros (s * n)) j) p)) in * .
      assert (D2 : Rabs (h * Rsum s (fun j => a i j * Rsum n (fun q => mentry J p q * ventry d (n * j + q)))) <= h * al * (INR n * K) * X).
      { rewrite Rabs_mult, (Rabs_pos_eq h) by lra. rewrite !Rmult_assoc. apply Rmult_le_compat_l; [lra|].
        apply Rle_trans with (Rsum s (fun j => Rabs (a i j)) * (INR n * (K * X))).
        - apply Rsum_weighted. intros j Hj. apply Rsum_bound. intros q Hq. rewrite Rabs_mult. apply Rmult_le_compat; try apply Rabs_pos; [apply HK; assumption|apply HX; nia].
        - apply Rmult_le_compat_r; [|apply Hal, Hi]. apply Rmult_le_pos; [apply pos_INR|]. apply Rmult_le_pos; [|exact X0]. pose proof (HK p p Hp Hp). pose proof (Rabs_pos (mentry J p p)). lra. }
      assert (D3 : h * al * (INR n * K) * X <= 1 / 2 * X) by (apply Rmult_le_compat_r; assumption).
      rewrite Ek. set (u := h * Rsum s _) in D2, Hsol. replace (ventry d (n * i + p)) with (g + u) by lra. pose proof (Rabs_triang g u). lra. }
    split; [intros k Hk; rewrite HY; apply Hd, Hk|].
    intros i p Hi Hp. unfold stage_defect. rewrite HY. pose proof (defect_part Y' i p ltac:(intros k' Hk'; rewrite HY; eapply Rle_trans; [apply Hd, Hk'|exact Hsr]) Hi Hp) as D1. set (g := h * Rsum s _) in * . pose proof (Hd (n * i + p)%nat ltac:(nia)).
    pose proof (Rabs_triang (ventry d (n * i + p)) (- g)) as Tr. rewrite Rabs_Ropp in Tr. unfold Rminus. lra.
  Qed.
  Lemma defect_norm_bound Y b : 0 <= b -> (forall i p, (i < s)%nat -> (p < n)%nat -> Rabs (stage_defect n s a c f t h y Y i p) <= b) ->
    defect_norm2 n s a c f t h y Y <= INR (n * s) * (b * b).
  Proof.
    intros Hb Hd. unfold defect_norm2. apply Rle_trans with (Rsum s (fun _ => INR n * (b * b))).
    - apply Rsum_le. intros i Hi. rewrite <- Rsum_const. apply Rsum_le. intros p Hp. pose proof (Hd i p Hi Hp) as Hx. set (x := stage_defect n s a c f t h y Y i p) in * .
      replace (x * x) with (Rabs x * Rabs x) by (rewrite <- Rabs_mult; apply Rabs_pos_eq, Rle_0_sqr). apply Rmult_le_compat; try apply Rabs_pos; assumption.
    - rewrite Rsum_const, mult_INR. lra.
  Qed.
  (** the error estimate *)
  Lemma estimate_bound gamma J fy diff e b : estimate_of n gamma h J fy diff e -> invertible (one_minus n (gamma * h) J) ->
    (forall p q, (p < n)%nat -> (q < n)%nat -> Rabs (mentry J p q) <= K) -> Rabs gamma * h * (INR n * K) <= 1 / 2 ->
    (forall p, (p < n)%nat -> Rabs (ventry fy p) <= B) -> (forall p, (p < n)%nat -> Rabs (diff p) <= b) ->
    forall p, (p < n)%nat -> Rabs (ventry e p) <= 2 * (Rabs gamma * h * B + b).
  Proof.
    intros (Le & He) Hinv HK Hsm Hfy Hdf.
    assert (HM : exists M, nrows M = n /\ ncols M = n /\ (forall p q, (p < n)%nat -> (q < n)%nat -> mentry M p q = delta p q - gamma * h * mentry J p q) /\ invertible M).
    { exists (one_minus n (gamma * h) J). unfold one_minus. rewrite mtab_nrows, mtab_ncols. repeat split; [|exact Hinv]. intros p q Hp Hq. rewrite mtab_entry by assumption. reflexivity. }
    specialize (He HM). apply dominated. intros X p HX X0 Hp. specialize (He p Hp).
    assert (D2 : Rabs (gamma * h * Rsum n (fun q => mentry J p q * ventry e q)) <= 1 / 2 * X).
    { rewrite !Rabs_mult, (Rabs_pos_eq h) by lra. apply Rle_trans with (Rabs gamma * h * (INR n * K) * X); [|apply Rmult_le_compat_r; assumption].
      rewrite (Rmult_assoc (Rabs gamma * h)). apply Rmult_le_compat_l; [apply Rmult_le_pos; [apply Rabs_pos|lra]|]. rewrite Rmult_assoc. apply Rsum_bound. intros q Hq. rewrite Rabs_mult.
      apply Rmult_le_compat; try apply Rabs_pos; [apply HK; assumption|apply HX, Hq]. }
    assert (D1 : Rabs (gamma * h * ventry fy p) <= Rabs gamma * h * B).
    { rewrite !Rabs_mult, (Rabs_pos_eq h) by lra. apply Rmult_le_compat_l; [apply Rmult_le_pos; [apply Rabs_pos|lra]|apply Hfy, Hp]. }
    specialize (Hdf p Hp). set (u := gamma * h * Rsum n _) in * . set (g := gamma * h * ventry fy p) in * . replace (ventry e p) with (g + diff p + u) by lra.
    pose proof (Rabs_triang (g + diff p) u). pose proof (Rabs_triang g (diff p)). lra.
  Qed.
  Lemma rms_bound atol rtol yn est b : length est = n -> 0 < atol -> 0 <= rtol -> 0 <= b -> (forall p, (p < n)%nat -> Rabs (ventry est p) <= b * atol) -> rms_error n atol rtol y yn est <= b.
  Proof.
    intros Le Ha Hr Hb He. unfold rms_error. rewrite <- (sqrt_square b) at 1 by exact Hb. apply sqrt_le_1_alt.
    assert (N : 0 < INR n) by (apply lt_0_INR, Hn). apply (Rmult_le_reg_r (INR n)); [exact N|]. unfold Rdiv at 1. rewrite Rmult_assoc, Rinv_l, Rmult_1_r by lra.
    rewrite Rmult_comm, <- Rsum_const. apply Rsum_le. intros p Hp. set (q := atol + rtol * Rmax (Rabs (ventry y p)) (Rabs (ventry yn p))).
    assert (Hq : atol <= q). { unfold q. pose proof (Rmult_le_pos rtol (Rmax (Rabs (ventry y p)) (Rabs (ventry yn p))) Hr). pose proof (Rmax_l (Rabs (ventry y p)) (Rabs (ventry yn p))). pose proof (Rabs_pos (ventry y p)). lra. }
    assert (E : Rabs (ventry est p / q) <= b).
    { unfold Rdiv. rewrite Rabs_mult, (Rabs_pos_eq (/ q)) by (left; apply Rinv_0_lt_compat; lra). apply (Rmult_le_reg_r q); [lra|]. rewrite Rmult_assoc, Rinv_l, Rmult_1_r by lra.
      specialize (He p Hp). pose proof (Rmult_le_compat_l b atol q Hb Hq). lra. }
    replace ((ventry est p / q) ^ 2) with (Rabs (ventry est p / q) * Rabs (ventry est p / q)) by (rewrite <- Rabs_mult, Rabs_pos_eq; [ring|apply Rle_0_sqr]).
    apply Rmult_le_compat; try apply Rabs_pos; assumption.
  Qed.
End Bounds.
