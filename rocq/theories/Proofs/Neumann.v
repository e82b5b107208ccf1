(** Matrices close to the identity are invertible. *)
From Coq Require Import Reals Lra.
From Coquelicot Require Import Coquelicot.
From Verif Require Import Model.Base Model.Scalar Model.LinAlg.
From Verif Require Import Spec.Sums Spec.NewtonSpec Spec.IrkSpec.
From Verif Require Import Proofs.SumsProofs Proofs.RVec.
Local Open Scope R_scope.

Lemma delta_sum_r n j f : (j < n)%nat -> Rsum n (fun k => f k * delta k j) = f j.
Proof.
  intros Hj. rewrite (Rsum_single n j); [unfold delta; destruct (Nat.eq_dec j j); [ring|congruence]|exact Hj|].
  intros i _ Hi. unfold delta. destruct (Nat.eq_dec i j); [congruence|ring].
Qed.

Lemma is_series_Rsum n (g : nat -> nat -> R) (l : nat -> R) : (forall i, (i < n)%nat -> is_series (g i) (l i)) -> is_series (fun k => Rsum n (fun i => g i k)) (Rsum n l).
Proof.
  induction n as [|n IH]; intros Hg; cbn [Rsum].
  - apply (filterlim_ext (fun _ => 0)); [|apply filterlim_const]. intros k. rewrite sum_n_const. symmetry. apply Rmult_0_r.
  - apply (is_series_plus (K := R_AbsRing) (V := R_NormedModule)); [apply IH; intros; apply Hg; lia|apply Hg; lia].
Qed.

Section Neumann.
Variables (N : nat) (B : nat -> nat -> R) (th : R).
Hypothesis Hth : 0 <= th < 1.
Hypothesis HB : forall i, (i < N)%nat -> Rsum N (fun j => Rabs (B i j)) <= th.

Fixpoint pw (k i j : nat) : R := match k with O => delta i j | S k => Rsum N (fun l => B i l * pw k l j) end.
Lemma pw_bound k : forall i j, (i < N)%nat -> Rabs (pw k i j) <= th ^ k.
Proof.
  induction k as [|k IH]; intros i j Hi; cbn [pw pow].
  - unfold delta. destruct (Nat.eq_dec i j); [rewrite Rabs_R1|rewrite Rabs_R0]; lra.
  - eapply Rle_trans; [apply Rsum_abs|]. apply Rle_trans with (Rsum N (fun l => Rabs (B i l) * th ^ k)).
    + apply Rsum_le. intros l Hl. rewrite Rabs_mult. apply Rmult_le_compat_l; [apply Rabs_pos|apply IH, Hl].
    + rewrite Rsum_scal_r. apply Rmult_le_compat_r; [apply pow_le; lra|apply HB, Hi].
Qed.
Lemma pw_right k : forall i j, (i < N)%nat -> (j < N)%nat -> pw (S k) i j = Rsum N (fun l => pw k i l * B l j).
Proof.
  induction k as [|k IH]; intros i j Hi Hj.
  - cbn [pw]. rewrite delta_sum_r by exact Hj. rewrite delta_sum by exact Hi. reflexivity.
  - change (pw (S (S k)) i j) with (Rsum N (fun l => B i l * pw (S k) l j)).
    rewrite (Rsum_ext N _ (fun l => Rsum N (fun m => B i l * (pw k l m * B m j)))) by (intros l Hl; rewrite IH by assumption; symmetry; apply Rsum_scal).
    rewrite Rsum_swap. apply Rsum_ext. intros m Hm. cbn [pw]. rewrite <- Rsum_scal_r. apply Rsum_ext. intros l _. ring.
Qed.
Definition pw_sum i j := Series (fun k => pw k i j).
Lemma pw_series i j : (i < N)%nat -> is_series (fun k => pw k i j) (pw_sum i j).
Proof.
  intros Hi. apply Series_correct. apply (ex_series_le (K := R_AbsRing) (V := R_CompleteNormedModule) _ (fun k => th ^ k)).
  - intros k. apply pw_bound, Hi.
  - exists (/ (1 - th)). apply is_series_geom. rewrite Rabs_pos_eq; lra.
Qed.
Lemma pw_tail i j : (i < N)%nat -> is_series (fun k => pw (S k) i j) (pw_sum i j - delta i j).
Proof.
  intros Hi. apply (is_series_incr_1 (K := R_AbsRing) (V := R_NormedModule) (fun k => pw k i j)).
  assert (E : pw_sum i j - delta i j + pw 0 i j = pw_sum i j) by (cbn [pw]; ring).
  exact (eq_ind_r (fun l => is_series (fun k => pw k i j) l) (pw_series i j Hi) E).
Qed.

Lemma neumann_left i j : (i < N)%nat -> Rsum N (fun l => B i l * pw_sum l j) = pw_sum i j - delta i j.
Proof.
  intros Hi. rewrite <- (is_series_unique _ _ (pw_tail i j Hi)). symmetry. apply is_series_unique. cbn [pw].
  apply (is_series_Rsum N (fun l k => B i l * pw k l j)). intros l Hl. apply (is_series_scal_l (K := R_AbsRing) (V := R_NormedModule) (B i l)), pw_series, Hl.
Qed.
Lemma neumann_right i j : (i < N)%nat -> (j < N)%nat -> Rsum N (fun l => pw_sum i l * B l j) = pw_sum i j - delta i j.
Proof.
  intros Hi Hj. rewrite <- (is_series_unique _ _ (pw_tail i j Hi)). symmetry. apply is_series_unique.
  apply (is_series_ext (fun k => Rsum N (fun l => pw k i l * B l j))); [intros k; symmetry; apply pw_right; assumption|].
  apply (is_series_Rsum N (fun l k => pw k i l * B l j)). intros l Hl. apply (is_series_ext (fun k => scal (B l j) (pw k i l))); [intros k; apply Rmult_comm|].
  rewrite Rmult_comm. apply (is_series_scal_l (K := R_AbsRing) (V := R_NormedModule)), pw_series, Hi.
Qed.

Lemma neumann A : nrows A = N -> ncols A = N -> (forall i j, (i < N)%nat -> (j < N)%nat -> mentry A i j = delta i j - B i j) -> invertible A.
Proof.
  intros Hr Hc HA. exists (mtab N N pw_sum). unfold is_inverse. rewrite Hr, Hc, mtab_nrows, mtab_ncols. repeat (split; [reflexivity|]). intros i j Hi Hj. split.
  - rewrite (Rsum_ext N _ (fun k => delta i k * pw_sum k j - B i k * pw_sum k j)).
    + rewrite Rsum_minus, delta_sum by exact Hi. rewrite neumann_left by exact Hi. ring.
    + intros k Hk. rewrite HA, mentry_vt by assumption. ring.
  - rewrite (Rsum_ext N _ (fun k => pw_sum i k * delta k j - pw_sum i k * B k j)).
    + rewrite Rsum_minus, delta_sum_r by exact Hj. rewrite neumann_right by assumption. ring.
    + intros k Hk. rewrite HA, mentry_vt by assumption. ring.
Qed.
End Neumann.

(** Sums over blocks *)
Lemma Rsum_blocks n s g : Rsum (n * s) g = Rsum s (fun i => Rsum n (fun p => g (n * i + p)%nat)).
Proof.
  induction s as [|s IH]; [rewrite Nat.mul_0_r; reflexivity|]. cbn [Rsum]. rewrite <- IH, <- Rsum_add. f_equal. lia.
Qed.
Lemma block_index n s k : (k < n * s)%nat -> exists i p, (i < s)%nat /\ (p < n)%nat /\ k = (n * i + p)%nat.
Proof.
  intros Hk. assert (n <> 0)%nat by (intros ->; simpl in Hk; lia). exists (k / n)%nat, (k mod n)%nat.
  split; [apply Nat.div_lt_upper_bound; assumption|]. split; [apply Nat.mod_upper_bound; assumption|]. apply Nat.div_mod. assumption.
Qed.
Lemma block_delta n i p j q : (p < n)%nat -> (q < n)%nat -> delta (n * i + p) (n * j + q) = delta i j * delta p q.
Proof.
  intros Hp Hq. unfold delta. destruct (Nat.eq_dec i j) as [->|Hij]; destruct (Nat.eq_dec p q) as [->|Hpq];
    match goal with |- context [Nat.eq_dec ?x ?y] => destruct (Nat.eq_dec x y) as [E|E] end; try ring; exfalso; try lia.
  - apply Hij. assert (E1 : ((n * i + q) / n = (n * j + q) / n)%nat) by (rewrite E; reflexivity). rewrite !(Nat.mul_comm n), !Nat.div_add_l, !(Nat.div_small q n) in E1 by lia. lia.
  - apply Hij. assert (E1 : ((n * i + p) / n = (n * j + q) / n)%nat) by (rewrite E; reflexivity). rewrite !(Nat.mul_comm n), !Nat.div_add_l, (Nat.div_small p n), (Nat.div_small q n) in E1 by lia. lia.
Qed.

(** The stage matrix of Newton's iteration is invertible when the step is small compared with the Jacobian. *)
Lemma stage_matrix_invertible n s a h J M L : 0 <= h -> 0 <= L -> (forall p q, (p < n)%nat -> (q < n)%nat -> Rabs (mentry J p q) <= L) ->
  (forall i, (i < s)%nat -> h * Rsum s (fun j => Rabs (a i j)) * (INR n * L) < 1) -> is_stage_matrix n s a h J M -> invertible M.
Proof.
  intros Hh HL HJ Hs (Mr & Mc & Me).
  assert (Hmax : exists th, 0 <= th < 1 /\ forall i, (i < s)%nat -> h * Rsum s (fun j => Rabs (a i j)) * (INR n * L) <= th).
  { assert (H0 : forall i, 0 <= h * Rsum s (fun j => Rabs (a i j)) * (INR n * L)).
    { intros i. repeat apply Rmult_le_pos; try assumption; [apply Rsum_nonneg; intros; apply Rabs_pos|apply pos_INR]. }
    assert (Hm : forall k, (k <= s)%nat -> exists th, 0 <= th < 1 /\ forall i, (i < k)%nat -> h * Rsum s (fun j => Rabs (a i j)) * (INR n * L) <= th).
    { induction k as [|k IH]; intros Hk; [exists 0; split; [lra|intros; lia]|]. destruct IH as (th & T1 & T2); [lia|].
      exists (Rmax th (h * Rsum s (fun j => Rabs (a k j)) * (INR n * L))). split.
      - split; [apply Rle_trans with th; [lra|apply Rmax_l]|]. apply Rmax_lub_lt; [lra|apply Hs; lia].
      - intros i Hi. destruct (Nat.eq_dec i k) as [->|]; [apply Rmax_r|]. eapply Rle_trans; [apply T2; lia|apply Rmax_l]. }
    apply (Hm s). lia. }
  destruct Hmax as (th & Hth & Hb).
  set (B := fun k l => h * (a (k / n)%nat (l / n)%nat * mentry J (k mod n) (l mod n))).
  assert (Bv : forall i p j q, (p < n)%nat -> (q < n)%nat -> B (n * i + p)%nat (n * j + q)%nat = h * (a i j * mentry J p q)).
  { intros i p j q Hp Hq. unfold B. rewrite !(Nat.mul_comm n), !Nat.div_add_l, (Nat.div_small p n), (Nat.div_small q n), !Nat.add_0_r by lia.
    rewrite !(Nat.add_comm (_ * n)), !Nat.mod_add, !Nat.mod_small by lia. reflexivity. }
  apply (neumann (n * s) B th Hth); [|exact Mr|exact Mc|].
  - intros k Hk. destruct (block_index n s k Hk) as (i & p & Hi & Hp & ->). rewrite Rsum_blocks.
    eapply Rle_trans; [|apply (Hb i Hi)]. rewrite <- Rsum_scal, <- Rsum_scal_r. apply Rsum_le. intros j Hj.
    apply Rle_trans with (Rsum n (fun _ => h * Rabs (a i j) * L)).
    + apply Rsum_le. intros q Hq. rewrite Bv by assumption. rewrite !Rabs_mult, (Rabs_pos_eq h Hh), Rmult_assoc. apply Rmult_le_compat_l; [exact Hh|]. apply Rmult_le_compat_l; [apply Rabs_pos|apply HJ; assumption].
    + rewrite Rsum_const. right. ring.
  - intros k l Hk Hl. destruct (block_index n s k Hk) as (i & p & Hi & Hp & ->). destruct (block_index n s l Hl) as (j & q & Hj & Hq & ->).
    rewrite Me, Bv, block_delta by assumption. reflexivity.
Qed.
