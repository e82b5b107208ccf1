(** The Radau methods with two and three stages are coercive: checked exactly in Q(sqrt d). *)
From Coq Require Import QArith Qreals Reals Lra.
From Verif Require Import Model.Base Model.Scalar Model.LinAlg Model.Enums Model.Coeffs Model.IrkCoeffs Spec.Sums Spec.Trees Spec.Methods Spec.NewtonSpec Spec.IrkSpec Spec.StabilitySpec.
From Verif Require Import Proofs.SumsProofs Proofs.RVec Proofs.QuadField Proofs.OrderProofs Proofs.IrkCoeffsProofs Proofs.IrkInverse Proofs.Neumann Proofs.TablesFinal Proofs.AlgStable Proofs.AlgStableTables Proofs.Coercive.
Local Open Scope R_scope.

(** ** Positive definite matrices, by elimination *)
Lemma schur_step n (M : nat -> nat -> R) (x : nat -> R) : (forall i j, M i j = M j i) ->
  M 0%nat 0%nat * Rsum (S n) (fun i => Rsum (S n) (fun j => M i j * (x i * x j))) =
  Rsum (S n) (fun j => M 0%nat j * x j) * Rsum (S n) (fun j => M 0%nat j * x j) +
  Rsum n (fun i => Rsum n (fun j => (M 0%nat 0%nat * M (S i) (S j) - M (S i) 0%nat * M 0%nat (S j)) * (x (S i) * x (S j)))).
Proof.
  intros HM. rewrite !Rsum_shift. rewrite (Rsum_ext n (fun i => Rsum (S n) (fun j => M (S i) j * (x (S i) * x j))) (fun i => M 0%nat (S i) * x (S i) * x 0%nat + Rsum n (fun j => M (S i) (S j) * (x (S i) * x (S j))))).
  2:{ intros i _. rewrite Rsum_shift, (HM (S i) 0%nat). ring. }
  rewrite Rsum_plus, Rsum_scal_r. set (B := Rsum n (fun j => M 0%nat (S j) * x (S j))). set (Q := Rsum n (fun i => Rsum n (fun j => M (S i) (S j) * (x (S i) * x (S j))))).
  assert (E1 : Rsum n (fun i => M 0%nat (S i) * (x 0%nat * x (S i))) = x 0%nat * B) by (unfold B; rewrite <- Rsum_scal; apply Rsum_ext; intros; ring). rewrite E1.
  assert (E2 : Rsum n (fun i => Rsum n (fun j => (M 0%nat 0%nat * M (S i) (S j) - M (S i) 0%nat * M 0%nat (S j)) * (x (S i) * x (S j)))) = M 0%nat 0%nat * Q - B * B).
  { unfold Q. rewrite <- Rsum_scal. unfold B at 1. rewrite <- Rsum_scal_r, <- Rsum_minus. apply Rsum_ext. intros i _. rewrite <- Rsum_scal. unfold B. rewrite <- Rsum_scal, <- Rsum_minus. apply Rsum_ext. intros j _. rewrite (HM (S i) 0%nat). ring. }
  rewrite E2. ring.
Qed.

Section Check.
  Variable d : Z.
  Hypothesis d_nonneg : (0 <= d)%Z.
  Fixpoint q_pd (n : nat) (M : nat -> nat -> qs) : bool :=
    match n with
    | O => true
    | S n => q_pos d (M 0%nat 0%nat) && q_pd n (fun i j => qs_sub (qs_mul d (M 0%nat 0%nat) (M (S i) (S j))) (qs_mul d (M (S i) 0%nat) (M 0%nat (S j))))
    end.
  Lemma q_pd_R n : forall M, (forall i j, toR d (M i j) = toR d (M j i)) -> q_pd n M = true -> forall x, 0 <= Rsum n (fun i => Rsum n (fun j => toR d (M i j) * (x i * x j))).
  Proof.
    induction n as [|n IH]; intros M HM Hc x; [cbn [Rsum]; lra|]. cbn [q_pd] in Hc. apply andb_true_iff in Hc. destruct Hc as [C1 C2]. apply (q_pos_R d d_nonneg) in C1.
    assert (Hs : forall i j, toR d (qs_sub (qs_mul d (M 0%nat 0%nat) (M (S i) (S j))) (qs_mul d (M (S i) 0%nat) (M 0%nat (S j)))) = toR d (M 0%nat 0%nat) * toR d (M (S i) (S j)) - toR d (M (S i) 0%nat) * toR d (M 0%nat (S j))).
    { intros i j. rewrite toR_sub, !toR_mul by exact d_nonneg. reflexivity. }
    assert (HM' : forall i j, toR d (qs_sub (qs_mul d (M 0%nat 0%nat) (M (S i) (S j))) (qs_mul d (M (S i) 0%nat) (M 0%nat (S j)))) = toR d (qs_sub (qs_mul d (M 0%nat 0%nat) (M (S j) (S i))) (qs_mul d (M (S j) 0%nat) (M 0%nat (S i))))).
    { intros i j. rewrite !Hs, (HM (S i) (S j)), (HM (S i) 0%nat), (HM 0%nat (S j)). ring. }
    specialize (IH _ HM' C2 (fun i => x (S i))).
    apply Rmult_le_reg_l with (toR d (M 0%nat 0%nat)); [exact C1|]. rewrite Rmult_0_r, (schur_step n (fun i j => toR d (M i j)) x HM). apply Rplus_le_le_0_compat; [apply Rle_0_sqr|].
    eapply Rle_trans; [exact IH|]. right. apply Rsum_ext. intros i _. apply Rsum_ext. intros j _. rewrite Hs. reflexivity.
  Qed.
  Definition qq (q : Q) : qs := QS q 0.
  Lemma toR_qq q : toR d (qq q) = Q2R q.
  Proof. apply toR_rational. reflexivity. Qed.
  Definition q_sum (n : nat) (f : nat -> qs) : qs := fold_right (fun i acc => qs_add (f i) acc) qs0 (seq 0 n).
  Lemma q_sum_R n f : toR d (q_sum n f) = Rsum n (fun i => toR d (f i)).
  Proof.
    unfold q_sum. pose proof (Rsum_fold (fun i => toR d (f i)) n 0) as E. cbn [Nat.add] in E. rewrite <- E. clear E. induction (seq 0 n) as [|i l IH]; cbn [fold_right]; [apply toR_0|]. rewrite toR_add, IH. reflexivity.
  Qed.
  Lemma q_sub_pos x y : q_pos d (qs_sub x y) = true -> toR d y <= toR d x.
  Proof. intros H. apply (q_pos_R d d_nonneg) in H. rewrite toR_sub in H. lra. Qed.

  Variables (x : solver_coeffs qs) (s : nat) (D : nat -> Q) (al v w be C : Q).
  Let rows := rows_of (sc_A x).
  Let W := gauss_inverse d s rows.
  Definition q_sq (z : qs) : qs := qs_mul d z z.
  Definition co_form (i j : nat) : qs := qs_sub (qs_add (qs_mul d (qq (D i)) (q_entry W i j)) (qs_mul d (qq (D j)) (q_entry W j i))) (qs_mul d (qq (2 * al)) (q_delta i j)).
  Definition co_check : bool :=
    dims_ok x s && inverse_check d s rows W && forallb (fun i => Qle_bool 0 (D i) && Qle_bool (D i) 1) (seq 0 s) &&
    q_pd s co_form &&
    q_pos d (qs_sub (qq (v * v)) (q_sum s (fun i => q_sq (qs_mul d (qq (D i)) (q_sum s (fun j => q_entry W i j)))))) &&
    q_pos d (qs_sub (qq (w * w)) (q_sum s (fun i => q_sum s (fun j => q_sq (q_entry W i j))))) &&
    forallb (fun i => q_pos d (qs_sub (qq be) (nth i (sc_b x) qs0))) (seq 0 s) &&
    negb (Qle_bool al 0) && Qle_bool 0 v && Qle_bool 0 w && Qle_bool (be * v * w) (C * al) && Qle_bool (2 * be * (w * w)) (C * C * al) && Qle_bool 0 C &&
    q_pos d (qs_sub qs1 (q_sum s (fun i => q_sum s (fun j => q_sq (q_entry rows i j))))).
  Lemma Q_le a b : Qle_bool a b = true -> Q2R a <= Q2R b.
  Proof. intros H. apply Qle_Rle, Qle_bool_iff, H. Qed.
  Lemma q_delta_sym i j : toR d (q_delta i j) = toR d (q_delta j i).
  Proof. rewrite !q_delta_R. unfold delta. destruct (Nat.eq_dec i j), (Nat.eq_dec j i); congruence. Qed.
  Lemma Q2R_0 : Q2R 0 = 0. Proof. unfold Q2R. simpl. lra. Qed.
  Lemma Q2R_1 : Q2R 1 = 1. Proof. unfold Q2R. simpl. lra. Qed.
  Lemma Q2R_2 : Q2R 2 = 2. Proof. unfold Q2R. simpl. lra. Qed.

  Lemma co_form_R i j : toR d (co_form i j) = Q2R (D i) * toR d (q_entry W i j) + Q2R (D j) * toR d (q_entry W j i) - 2 * Q2R al * delta i j.
  Proof. unfold co_form. rewrite toR_sub, toR_add, !toR_mul, !toR_qq, q_delta_R, Q2R_mult, Q2R_2 by exact d_nonneg. reflexivity. Qed.
  Lemma co_form_sym i j : toR d (co_form i j) = toR d (co_form j i).
  Proof. rewrite !co_form_R. pose proof (q_delta_sym i j) as E. rewrite !q_delta_R in E. rewrite E. generalize (toR d (q_entry W i j)) (toR d (q_entry W j i)) (delta j i) (Q2R (D i)) (Q2R (D j)) (Q2R al). intros. ring. Qed.

  Variable r : solver_coeffs R.
  Hypothesis Hm : sc_match d x r.
  Lemma co_checked : co_check = true -> length (sc_b r) = s /\ coercive s (mfun (sc_A r)) (vfun (sc_b r)) (Q2R C).
  Proof.
    unfold co_check. rewrite !andb_true_iff. intros [[[[[[[[[[[[[C1 C2] C3] C4] C5] C6] C7] C8] C9] C10] C11] C12] C13] C14]. rewrite forallb_forall in C3, C7.
    assert (Ha : forall i j, (i < s)%nat -> (j < s)%nat -> mfun (sc_A r) i j = toR d (q_entry rows i j)) by (intros; apply (tab_a d x r s Hm C1); assumption).
    assert (Hb : forall i, vfun (sc_b r) i = toR d (nth i (sc_b x) qs0)) by (intros i; unfold vfun; rewrite (m_b _ _ _ Hm); apply tab_v).
    apply Q_le in C9, C10, C11, C12, C13. apply q_sub_pos in C5, C6, C14. rewrite !Q2R_mult, ?Q2R_2 in * . rewrite Q2R_0 in * . rewrite toR_qq, Q2R_mult in C5, C6.
    split; [rewrite (m_b _ _ _ Hm), map_length; exact (proj1 (dims_facts x s C1))|]. split.
    - exists (fun i j => toR d (q_entry W i j)), (fun i => Q2R (D i)), (Q2R al), (Q2R v), (Q2R w), (Q2R be).
      split; [|split; [|split; [|split; [|split; [|split; [|split; [|repeat split; assumption]]]]]]].
      + intros i j Hi Hj. destruct (inverse_checked d d_nonneg s _ _ C2 i j Hi Hj) as [E1 E2]. rewrite <- E1 at 1. rewrite <- E2. split; apply Rsum_ext; intros k Hk'; rewrite Ha by assumption; reflexivity.
      + intros i Hi. specialize (C3 i ltac:(apply in_seq; lia)). apply andb_true_iff in C3. destruct C3 as [D1 D2]. apply Q_le in D1, D2. rewrite Q2R_0 in D1. rewrite Q2R_1 in D2. lra.
      + intros z. pose proof (q_pd_R s co_form co_form_sym C4 z) as H.
        rewrite (Rsum_ext s _ (fun i => Rsum s (fun j => Q2R (D i) * toR d (q_entry W i j) * (z i * z j)) + Rsum s (fun j => Q2R (D j) * toR d (q_entry W j i) * (z i * z j)) - 2 * Q2R al * (z i * z i))) in H.
        * rewrite Rsum_minus, Rsum_plus, Rsum_scal in H. rewrite (Rsum_swap s s (fun i j => Q2R (D j) * toR d (q_entry W j i) * (z i * z j))) in H.
          rewrite (Rsum_ext s (fun j => Rsum s (fun i => Q2R (D j) * toR d (q_entry W j i) * (z i * z j))) (fun i => Rsum s (fun j => Q2R (D i) * toR d (q_entry W i j) * (z i * z j)))) in H by (intros; apply Rsum_ext; intros; ring). lra.
        * intros i Hi. rewrite <- (delta_sum s i (fun j => z i * z j)) by exact Hi. rewrite <- Rsum_scal, <- Rsum_plus, <- Rsum_minus. apply Rsum_ext. intros j Hj.
          rewrite co_form_R. generalize (toR d (q_entry W i j)) (toR d (q_entry W j i)) (delta i j) (Q2R (D i)) (Q2R (D j)) (Q2R al). intros. ring.
      + eapply Rle_trans; [|exact C5]. right. rewrite q_sum_R. apply Rsum_ext. intros i Hi. unfold q_sq. rewrite !toR_mul, toR_qq, q_sum_R by exact d_nonneg. reflexivity.
      + eapply Rle_trans; [|exact C6]. right. rewrite q_sum_R. apply Rsum_ext. intros i Hi. rewrite q_sum_R. apply Rsum_ext. intros j Hj. unfold q_sq. rewrite !toR_mul by exact d_nonneg. reflexivity.
      + intros i Hi. rewrite Hb. specialize (C7 i ltac:(apply in_seq; lia)). apply q_sub_pos in C7. rewrite toR_qq in C7. exact C7.
      + apply Q_neg_le in C8. rewrite Q2R_0 in C8. exact C8.
    - rewrite toR_1 in C14. eapply Rle_trans; [|exact C14]. right. rewrite q_sum_R. apply Rsum_ext. intros i Hi. rewrite q_sum_R. apply Rsum_ext. intros j Hj. unfold q_sq. rewrite !toR_mul, Ha by assumption. reflexivity.
  Qed.
End Check.

Lemma radau_coercive `{Env R} m C sc : In (m, C) radau_growth -> irk_get_coefficients (T := R) m = Ok sc -> coercive (length (sc_b sc)) (mfun (sc_A sc)) (vfun (sc_b sc)) C.
Proof.
  unfold radau_growth. cbn [In]. intros Hi Hg. destruct match_r32 as (s1 & E1 & M1). destruct match_r53 as (s2 & E2 & M2).
  destruct Hi as [Hi|[Hi|[]]]; injection Hi as <- <-.
  - rewrite (irk_get_det _ _ _ Hg E1). destruct (co_checked 2 ltac:(lia) _ 2 (fun i => nth i [1; 1 # 3]%Q 0%Q) (1 # 2) (211 # 100) (539 # 100) (751 # 1000) 18 _ M1) as [L HC]; [vm_compute; reflexivity|]. rewrite L.
    replace 18 with (Q2R 18) by (unfold Q2R; simpl; lra). exact HC.
  - rewrite (irk_get_det _ _ _ Hg E2). destruct (co_checked 6 ltac:(lia) _ 3 (fun i => nth i [1; 2 # 3; 1 # 10]%Q 0%Q) (38 # 100) (432 # 100) (1178 # 100) (513 # 1000) 70 _ M2) as [L HC]; [vm_compute; reflexivity|]. rewrite L.
    replace 70 with (Q2R 70) by (unfold Q2R; simpl; lra). exact HC.
Qed.
