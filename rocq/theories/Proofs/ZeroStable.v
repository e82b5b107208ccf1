(** The BDF formulas of orders 1 to 6 are zero-stable: what enters their equations is added up, with a bounded factor.

    The formula, applied to a sequence e, is 1 - z times a polynomial V applied to the differences of e (z is the shift).  A polynomial
    Q with Q V = 1 - R, where the coefficients of R sum to less than one in absolute value, bounds the sum of the differences. *)
From Coq Require Import Reals Lra.
From Verif Require Import Model.Base Spec.Sums Spec.MultistepSpec Proofs.SumsProofs.
Local Open Scope R_scope.

Definition sh (d : nat -> R) (i : nat) : R := match i with O => 0 | S i => d i end.
Fixpoint conv (l : list R) (d : nat -> R) (i : nat) : R := match l with [] => 0 | c :: l => c * d i + conv l (sh d) i end.
Fixpoint padd (l m : list R) : list R := match l, m with [], _ => m | _, [] => l | a :: l, b :: m => (a + b) :: padd l m end.
Fixpoint pmul (l m : list R) : list R := match l with [] => [] | c :: l => padd (map (Rmult c) m) (0 :: pmul l m) end.
Fixpoint norm1 (l : list R) : R := match l with [] => 0 | c :: l => Rabs c + norm1 l end.
Definition total (N : nat) (d : nat -> R) : R := Rsum (S N) (fun i => Rabs (d i)).

Lemma sh_ext d d' i : (forall i, d i = d' i) -> sh d i = sh d' i.
Proof. destruct i; intros E; [reflexivity|apply E]. Qed.
Lemma conv_ext l : forall d d' i, (forall i, d i = d' i) -> conv l d i = conv l d' i.
Proof. induction l as [|c l IH]; intros d d' i E; cbn; [reflexivity|]. rewrite E, (IH (sh d) (sh d')); [reflexivity|]. intros j. apply sh_ext, E. Qed.
Lemma conv_sh l : forall d i, conv l (sh d) i = sh (conv l d) i.
Proof.
  induction l as [|c l IH]; intros d i; cbn; [destruct i; reflexivity|]. rewrite IH. destruct i; cbn [sh]; [ring|]. rewrite IH. reflexivity.
Qed.
Lemma conv_padd l : forall m d i, conv (padd l m) d i = conv l d i + conv m d i.
Proof.
  induction l as [|c l IH]; intros [|a m] d i; cbn; [ring|ring|ring|]. rewrite IH. ring.
Qed.
Lemma conv_map c l : forall d i, conv (map (Rmult c) l) d i = c * conv l d i.
Proof. induction l as [|a l IH]; intros d i; cbn; [ring|]. rewrite IH. ring. Qed.
Lemma conv_pmul l : forall m d i, conv (pmul l m) d i = conv l (conv m d) i.
Proof.
  induction l as [|c l IH]; intros m d i; [reflexivity|]. cbn [pmul conv]. rewrite conv_padd, conv_map. cbn [conv]. rewrite IH.
  rewrite (conv_ext l (conv m (sh d)) (sh (conv m d))) by (intros j; apply conv_sh). ring.
Qed.
Lemma total_pos N d : 0 <= total N d.
Proof. apply Rsum_nonneg. intros. apply Rabs_pos. Qed.
Lemma total_sh N d : total N (sh d) <= total N d.
Proof.
  unfold total. rewrite (Rsum_shift N (fun i => Rabs (sh d i))). cbn [sh]. rewrite Rabs_R0. cbn [Rsum]. pose proof (Rabs_pos (d N)). lra.
Qed.
Lemma norm1_pos l : 0 <= norm1 l.
Proof. induction l as [|c l IH]; cbn; [lra|]. pose proof (Rabs_pos c). lra. Qed.
Lemma total_conv N l : forall d, total N (conv l d) <= norm1 l * total N d.
Proof.
  induction l as [|c l IH]; intros d; cbn [conv norm1].
  - unfold total at 1. rewrite (Rsum_ext (S N) _ (fun _ => 0)) by (intros; rewrite Rabs_R0; reflexivity). rewrite Rsum_0 by reflexivity. lra.
  - eapply Rle_trans; [|rewrite Rmult_plus_distr_r; apply Rplus_le_compat_l; eapply Rle_trans; [apply IH|apply Rmult_le_compat_l; [apply norm1_pos|apply total_sh]]].
    unfold total. rewrite <- Rsum_scal, <- Rsum_plus. apply Rsum_le. intros i _. rewrite <- Rabs_mult. apply Rabs_triang.
Qed.
Lemma conv_bound l : forall d b i, 0 <= b -> (forall m, (m <= i)%nat -> Rabs (d m) <= b) -> Rabs (conv l d i) <= norm1 l * b.
Proof.
  induction l as [|c l IH]; intros d b i Hb Hd; cbn [conv norm1]; [rewrite Rabs_R0; lra|].
  eapply Rle_trans; [apply Rabs_triang|]. rewrite Rabs_mult, Rmult_plus_distr_r. apply Rplus_le_compat.
  - apply Rmult_le_compat_l; [apply Rabs_pos|apply Hd; lia].
  - apply IH; [exact Hb|]. intros [|m] Hm; cbn [sh]; [rewrite Rabs_R0; exact Hb|apply Hd; lia].
Qed.

(** Inverting V up to R. *)
Lemma total_inverse N v q d r : norm1 (padd (pmul q v) [-1]) <= r -> r < 1 -> total N d <= norm1 q / (1 - r) * total N (conv v d).
Proof.
  intros Hr H1.
  assert (E : forall i, d i = conv q (conv v d) i - conv (padd (pmul q v) [-1]) d i) by (intros i; rewrite conv_padd, conv_pmul; cbn; ring).
  assert (T : total N d <= norm1 q * total N (conv v d) + r * total N d).
  { apply Rle_trans with (total N (conv q (conv v d)) + total N (conv (padd (pmul q v) [-1]) d)).
    - unfold total. rewrite <- Rsum_plus. apply Rsum_le. intros i _. rewrite (E i) at 1. unfold Rminus. eapply Rle_trans; [apply Rabs_triang|]. rewrite Rabs_Ropp. lra.
    - apply Rplus_le_compat; [apply total_conv|]. eapply Rle_trans; [apply total_conv|]. apply Rmult_le_compat_r; [apply total_pos|exact Hr]. }
  apply Rmult_le_reg_l with (1 - r); [lra|]. replace ((1 - r) * (norm1 q / (1 - r) * total N (conv v d))) with (norm1 q * total N (conv v d)) by (field; lra). lra.
Qed.

Definition vs_table : list (list R) :=
  [ [1];
    [1; -1/3];
    [1; -7/11; 2/11];
    [1; -23/25; 13/25; -3/25];
    [1; -163/137; 1; -63/137; 12/137];
    [1; -71/49; 79/49; -163/147; 62/147; -10/147] ].
Definition qs_table : list (list R) :=
  [ [1];
    [1; 17/50];
    [1; 16/25];
    [1; 23/25; 8/25];
    [1; 59/50; 21/50];
    [1; 36/25; 12/25; -13/25; -9/25; 8/25; 9/25; -7/50; -8/25; 1/50; 6/25; 3/50] ].
Definition bs_table : list (list R) :=
  [ [0];
    [0; 1/150; 17/150];
    [0; 1/275; 62/275; 32/275];
    [0; 0; 4/625; 8/125; 7/125; 24/625];
    [0; 67/6850; 11/685; 151/685; 24/685; 123/1370; 126/3425];
    [0; 11/1225; 1/175; 2/735; 4/525; 38/3675; 11/3675; 11/7350; 59/7350; 67/3675; 24/1225; 58/3675; 16/105; 341/2450; 1/30; 11/1225; 1/245] ].
Definition bdf_v (k : nat) : list R := nth (k - 1) vs_table [].
Definition bdf_q (k : nat) : list R := nth (k - 1) qs_table [].

Lemma norm1_bound l m s : Forall2 (fun x b => Rabs x <= b) l m -> fold_right Rplus 0 m <= s -> norm1 l <= s.
Proof.
  intros H. revert s. induction H as [|x b l m Hx _ IH]; intros s Hs; cbn in *; [lra|]. specialize (IH (s - b) ltac:(lra)). lra.
Qed.
Lemma bdf_v_norm k : (1 <= k <= 6)%nat -> norm1 (bdf_v k) <= 6.
Proof. intros Hk. destruct k as [|[|[|[|[|[|[|k]]]]]]]; try lia; cbn; unfold Rabs; repeat destruct Rcase_abs; lra. Qed.
Lemma bdf_q_norm k : (1 <= k <= 6)%nat -> norm1 (bdf_q k) <= 6.
Proof.
  intros Hk. apply (norm1_bound _ (map (fun x => if Rle_dec 0 x then x else - x) (bdf_q k))).
  - induction (bdf_q k) as [|x l IH]; cbn; constructor; [|exact IH]. destruct Rle_dec; unfold Rabs; destruct Rcase_abs; lra.
  - destruct k as [|[|[|[|[|[|[|k]]]]]]]; try lia; cbn; repeat destruct Rle_dec; lra.
Qed.
Lemma bdf_qv k : (1 <= k <= 6)%nat -> norm1 (padd (pmul (bdf_q k) (bdf_v k)) [-1]) <= 1 / 2.
Proof.
  intros Hk. apply (norm1_bound _ (nth (k - 1) bs_table [])).
  - destruct k as [|[|[|[|[|[|[|k]]]]]]]; try lia; cbn; repeat (constructor; [apply Rabs_le; lra|]); constructor.
  - destruct k as [|[|[|[|[|[|[|k]]]]]]]; try lia; cbn; lra.
Qed.

Definition diff (e : nat -> R) (i : nat) : R := match i with O => e O | S j => e (S j) - e j end.
Lemma diff_sum e i : e i = Rsum (S i) (diff e).
Proof. induction i as [|i IH]; [cbn; ring|]. change (Rsum (S (S i)) (diff e)) with (Rsum (S i) (diff e) + diff e (S i)). rewrite <- IH. cbn [diff]. ring. Qed.

(** What the BDF equation leaves, in terms of the differences. *)
Lemma bdf_v_conv k e i : (1 <= k <= 6)%nat -> (k <= i)%nat -> conv (bdf_v k) (diff e) i = e i + Rsum k (fun j => bdf_weight k j * e (i - 1 - j)%nat).
Proof.
  intros Hk Hi. destruct k as [|[|[|[|[|[|[|k]]]]]]]; try lia.
  - destruct i as [|i]; [lia|]. unfold bdf_weight; cbn. rewrite ?Nat.sub_0_r. ring.
  - destruct i as [|[|i]]; [lia|lia|]. unfold bdf_weight; cbn. rewrite ?Nat.sub_0_r. field.
  - destruct i as [|[|[|i]]]; [lia|lia|lia|]. unfold bdf_weight; cbn. rewrite ?Nat.sub_0_r. field.
  - destruct i as [|[|[|[|i]]]]; [lia|lia|lia|lia|]. unfold bdf_weight; cbn. rewrite ?Nat.sub_0_r. field.
  - destruct i as [|[|[|[|[|i]]]]]; [lia|lia|lia|lia|lia|]. unfold bdf_weight; cbn. rewrite ?Nat.sub_0_r. field.
  - destruct i as [|[|[|[|[|[|i]]]]]]; [lia|lia|lia|lia|lia|lia|]. unfold bdf_weight; cbn. rewrite ?Nat.sub_0_r. field.
Qed.

(** Zero-stability *)
Theorem bdf_zero_stable k e i : (1 <= k <= 6)%nat -> Rabs (e i) <= 12 * total i (conv (bdf_v k) (diff e)).
Proof.
  intros Hk. rewrite diff_sum. eapply Rle_trans; [apply Rsum_abs|]. fold (total i (diff e)).
  eapply Rle_trans; [apply (total_inverse i (bdf_v k) (bdf_q k) (diff e) (1 / 2) (bdf_qv k Hk)); lra|].
  apply Rmult_le_compat_r; [apply total_pos|]. pose proof (bdf_q_norm k Hk). lra.
Qed.

Lemma conv_local l : forall d d' i, (forall m, (m <= i)%nat -> d m = d' m) -> conv l d i = conv l d' i.
Proof.
  induction l as [|c l IH]; intros d d' i E; cbn [conv]; [reflexivity|]. rewrite (E i (le_n _)), (IH (sh d) (sh d')); [reflexivity|]. intros [|m] Hm; cbn [sh]; [reflexivity|apply E; lia].
Qed.
Lemma conv_window l : forall d b i, 0 <= b -> (forall m, (i < m + length l)%nat -> (m <= i)%nat -> Rabs (d m) <= b) -> Rabs (conv l d i) <= norm1 l * b.
Proof.
  induction l as [|c l IH]; intros d b i Hb Hd; cbn [conv norm1]; [rewrite Rabs_R0; lra|].
  eapply Rle_trans; [apply Rabs_triang|]. rewrite Rabs_mult, Rmult_plus_distr_r. apply Rplus_le_compat.
  - apply Rmult_le_compat_l; [apply Rabs_pos|apply Hd; cbn; lia].
  - apply IH; [exact Hb|]. intros [|m] H1 H2; cbn [sh]; [rewrite Rabs_R0; exact Hb|apply Hd; cbn; lia].
Qed.
Lemma conv_diff l e i : conv l (diff e) (S i) = conv l e (S i) - conv l e i.
Proof.
  rewrite (conv_ext l (diff e) (conv [1; -1] e)) by (intros [|j]; cbn; ring).
  rewrite <- conv_pmul, conv_pmul. clear.
  assert (G : forall l d i, conv l (conv [1; -1] d) i = conv l d i - conv l (sh d) i).
  { induction l0 as [|c l0 IH]; intros d j; [cbn; ring|]. cbn [conv]. 
    rewrite (conv_ext l0 (sh (conv [1; -1] d)) (conv [1; -1] (sh d))) by (intros m; symmetry; apply conv_sh). rewrite IH. cbn [conv]. ring. }
  rewrite G, conv_sh. reflexivity.
Qed.
Lemma bdf_v_length k : (1 <= k <= 6)%nat -> length (bdf_v k) = k.
Proof. intros Hk. destruct k as [|[|[|[|[|[|[|k]]]]]]]; try lia; reflexivity. Qed.
Lemma bdf_v_ramp k : (1 <= k <= 6)%nat -> 2 / 5 * norm1 (bdf_v k) < conv (bdf_v k) INR k.
Proof. intros Hk. destruct k as [|[|[|[|[|[|[|k]]]]]]]; try lia; cbn; unfold Rabs; repeat destruct Rcase_abs; lra. Qed.
Lemma conv_scal l c : forall d i, conv l (fun m => c * d m) i = c * conv l d i.
Proof.
  induction l as [|a l IH]; intros d i; cbn [conv]; [ring|]. rewrite (conv_ext l (sh (fun m => c * d m)) (fun m => c * sh d m)) by (intros [|m]; cbn [sh]; ring). rewrite IH. ring.
Qed.
