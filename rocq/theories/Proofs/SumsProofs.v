(** Lemmas on finite sums, lists as vectors, tabulation. *)
From Coq Require Import Reals Lra.
From Verif Require Import Model.Base Model.Scalar Model.LinAlg Spec.Sums.
Local Open Scope R_scope.

Lemma Rsum_ext n f g : (forall i, (i < n)%nat -> f i = g i) -> Rsum n f = Rsum n g.
Proof. induction n; simpl; intros H; [reflexivity|]. rewrite IHn, H; auto. Qed.
Lemma Rsum_0 n f : (forall i, (i < n)%nat -> f i = 0) -> Rsum n f = 0.
Proof. induction n; simpl; intros H; [reflexivity|]. rewrite IHn, H; auto. lra. Qed.
Lemma Rsum_plus n f g : Rsum n (fun i => f i + g i) = Rsum n f + Rsum n g.
Proof. induction n; simpl; [lra|]. rewrite IHn; lra. Qed.
Lemma Rsum_minus n f g : Rsum n (fun i => f i - g i) = Rsum n f - Rsum n g.
Proof. induction n; simpl; [lra|]. rewrite IHn; lra. Qed.
Lemma Rsum_scal n k f : Rsum n (fun i => k * f i) = k * Rsum n f.
Proof. induction n; simpl; [lra|]. rewrite IHn; lra. Qed.
Lemma Rsum_scal_r n k f : Rsum n (fun i => f i * k) = Rsum n f * k.
Proof. induction n; simpl; [lra|]. rewrite IHn; lra. Qed.
Lemma Rsum_opp n f : Rsum n (fun i => - f i) = - Rsum n f.
Proof. induction n; simpl; [lra|]. rewrite IHn; lra. Qed.
Lemma Rsum_swap n m f : Rsum n (fun i => Rsum m (fun j => f i j)) = Rsum m (fun j => Rsum n (fun i => f i j)).
Proof.
  induction n; simpl.
  - rewrite Rsum_0; auto.
  - rewrite IHn, <- Rsum_plus. apply Rsum_ext; auto.
Qed.
Lemma Rsum_shift n f : Rsum (S n) f = f O + Rsum n (fun i => f (S i)).
Proof. induction n; [simpl; lra|]. change (Rsum (S (S n)) f) with (Rsum (S n) f + f (S n)). rewrite IHn. simpl. lra. Qed.
Lemma Rsum_single n k f : (k < n)%nat -> (forall i, (i < n)%nat -> i <> k -> f i = 0) -> Rsum n f = f k.
Proof.
  induction n; intros Hk H; [lia|]. simpl.
  destruct (Nat.eq_dec k n) as [->|Hn].
  - rewrite Rsum_0; [lra|]. intros i Hi. apply H; lia.
  - rewrite IHn, (H n); try lra; try lia. intros i Hi Hne. apply H; lia.
Qed.
Lemma Rsum_abs n f : Rabs (Rsum n f) <= Rsum n (fun i => Rabs (f i)).
Proof. induction n; simpl; [rewrite Rabs_R0; lra|]. pose proof (Rabs_triang (Rsum n f) (f n)). lra. Qed.
Lemma Rsum_le n f g : (forall i, (i < n)%nat -> f i <= g i) -> Rsum n f <= Rsum n g.
Proof. induction n; simpl; intros H; [lra|]. pose proof (H n). specialize (IHn (fun i Hi => H i ltac:(lia))). assert (f n <= g n) by auto. lra. Qed.
Lemma Rsum_nonneg n f : (forall i, (i < n)%nat -> 0 <= f i) -> 0 <= Rsum n f.
Proof. induction n; simpl; intros H; [lra|]. assert (0 <= f n) by auto. specialize (IHn (fun i Hi => H i ltac:(lia))). lra. Qed.
Lemma Rsum_add n m f : Rsum (n + m) f = Rsum n f + Rsum m (fun i => f (n + i)%nat).
Proof.
  induction m; simpl; [rewrite Nat.add_0_r; lra|].
  rewrite Nat.add_succ_r. simpl. rewrite IHm. lra.
Qed.
Lemma Rsum_const n k : Rsum n (fun _ => k) = INR n * k.
Proof. induction n; [simpl; lra|]. rewrite S_INR. cbn [Rsum]. rewrite IHn. lra. Qed.

Lemma vtab_length {T} n (f : nat -> T) : length (vtab n f) = n.
Proof. unfold vtab. rewrite map_length, seq_length; reflexivity. Qed.
Lemma vtab_nth {T} n (f : nat -> T) i d : (i < n)%nat -> nth i (vtab n f) d = f i.
Proof.
  intros Hi. unfold vtab.
  rewrite (nth_indep _ d (f O)) by (rewrite map_length, seq_length; exact Hi).
  rewrite map_nth, seq_nth; auto.
Qed.
Lemma vtab_ext {T} n (f g : nat -> T) : (forall i, (i < n)%nat -> f i = g i) -> vtab n f = vtab n g.
Proof. intros H. unfold vtab. apply map_ext_in. intros i Hi. apply in_seq in Hi. apply H; lia. Qed.
Lemma list_vtab {T} (d : T) l : l = vtab (length l) (fun i => nth i l d).
Proof.
  apply (nth_ext _ _ d d); [rewrite vtab_length; reflexivity|].
  intros i Hi. rewrite vtab_nth; auto.
Qed.
Lemma list_ext_nth {T} (d : T) l1 l2 :
  length l1 = length l2 -> (forall i, (i < length l1)%nat -> nth i l1 d = nth i l2 d) -> l1 = l2.
Proof. intros H1 H2. apply (nth_ext _ _ d d); auto. Qed.

Lemma mtab_nrows {T} n m (f : nat -> nat -> T) : nrows (mtab n m f) = n.
Proof. reflexivity. Qed.
Lemma mtab_ncols {T} n m (f : nat -> nat -> T) : ncols (mtab n m f) = m.
Proof. unfold ncols, mtab; simpl. rewrite map_length, seq_length; reflexivity. Qed.
Lemma mtab_wf {T} n m (f : nat -> nat -> T) : mat_wf (mtab n m f).
Proof.
  unfold mat_wf, mtab; simpl. apply Forall_forall. intros c Hc. apply in_map_iff in Hc as [j [<- _]].
  rewrite map_length, seq_length; reflexivity.
Qed.
Lemma mtab_col {T} n m (f : nat -> nat -> T) j : (j < m)%nat -> nth j (mcols (mtab n m f)) [] = vtab n (fun i => f i j).
Proof. intros Hj. unfold mtab; simpl. apply (vtab_nth m (fun j => map (fun i => f i j) (seq 0 n))); exact Hj. Qed.
Lemma mtab_entry n m (f : nat -> nat -> R) i j :
  (i < n)%nat -> (j < m)%nat -> mentry (mtab n m f) i j = f i j.
Proof. intros Hi Hj. unfold mentry. rewrite mtab_col by exact Hj. apply (vtab_nth n (fun i => f i j)); exact Hi. Qed.
Lemma wf_col {T} (A : mat T) j : mat_wf A -> (j < ncols A)%nat -> length (nth j (mcols A) []) = nrows A.
Proof. intros H Hj. unfold mat_wf in H. rewrite Forall_forall in H. apply H, nth_In, Hj. Qed.
Lemma mget_mtab {T} n m (f : nat -> nat -> T) i j :
  (i < n)%nat -> (j < m)%nat -> mget (mtab n m f) i j = Ok (f i j).
Proof.
  intros Hi Hj. unfold mget, mtab; simpl.
  rewrite (map_nth_error _ j (seq 0 m) (d := j)).
  2:{ rewrite (nth_error_nth' _ O) by (rewrite seq_length; exact Hj). rewrite seq_nth; auto. }
  rewrite (map_nth_error _ i (seq 0 n) (d := i)); [reflexivity|].
  rewrite (nth_error_nth' _ O) by (rewrite seq_length; exact Hi). rewrite seq_nth; auto.
Qed.
Lemma mat_ext (A B : mat R) :
  mat_wf A -> mat_wf B -> nrows A = nrows B -> ncols A = ncols B ->
  (forall i j, (i < nrows A)%nat -> (j < ncols A)%nat -> mentry A i j = mentry B i j) -> A = B.
Proof.
  intros HA HB Hr Hc H. destruct A as [n ca], B as [n' cb]; simpl in * . subst n'. f_equal.
  apply (nth_ext _ _ [] []); [exact Hc|]. intros j Hj.
  pose proof (wf_col (Mat n ca) j HA Hj) as La. simpl in La.
  assert (Lb : length (nth j cb []) = n). { apply (wf_col (Mat n cb) j HB). unfold ncols in *; simpl in *; lia. }
  apply (nth_ext _ _ 0 0); [congruence|]. intros i Hi. apply H; [lia|exact Hj].
Qed.
Lemma mtab_ext {T} n m (f g : nat -> nat -> T) :
  (forall i j, (i < n)%nat -> (j < m)%nat -> f i j = g i j) -> mtab n m f = mtab n m g.
Proof.
  intros H. unfold mtab. f_equal. apply map_ext_in. intros j Hj. apply in_seq in Hj.
  apply map_ext_in. intros i Hi. apply in_seq in Hi. apply H; lia.
Qed.
Lemma mat_mtab {T} (d : T) A : mat_wf A -> A = mtab (nrows A) (ncols A) (fun i j => nth i (nth j (mcols A) []) d).
Proof.
  intros HA. destruct A as [n ca]. unfold mtab, ncols. cbn [nrows mcols]. f_equal.
  rewrite (list_vtab [] ca) at 1. unfold vtab at 1. apply map_ext_in. intros j Hj. apply in_seq in Hj.
  pose proof (wf_col (Mat n ca) j HA ltac:(unfold ncols; simpl; lia)) as L. simpl in L.
  rewrite (list_vtab d (nth j ca [])) at 1. rewrite L. reflexivity.
Qed.
