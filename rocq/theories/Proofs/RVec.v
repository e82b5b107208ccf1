(** Entries of the results of vector and matrix operations. *)
From Coq Require Import Reals Lra.
From Verif Require Import Model.Base Model.Scalar Model.LinAlg Spec.Sums Spec.NewtonSpec Proofs.SumsProofs.
Local Open Scope R_scope.

Section Generic.
  Context {T : Type} {HS : Scalar T}.
  Lemma vset_length {A} (l : list A) i x : length (list_set l i x) = length l.
  Proof. revert i. induction l as [|a l IH]; intros [|i]; simpl; auto. Qed.
  Lemma vset_nth {A} (l : list A) i x k d : nth k (list_set l i x) d = if (k =? i)%nat && (i <? length l)%nat then x else nth k l d.
  Proof.
    revert i k. induction l as [|a l IH]; intros [|i] [|k]; simpl; try reflexivity.
    - rewrite andb_false_r. reflexivity.
    - rewrite IH. reflexivity.
  Qed.
  Lemma list_ext {A} (d : A) l1 l2 : length l1 = length l2 -> (forall i, (i < length l1)%nat -> nth i l1 d = nth i l2 d) -> l1 = l2.
  Proof. intros Hl Hn. apply (nth_ext l1 l2 d d Hl Hn). Qed.
  Lemma mset_mtab n m (f : nat -> nat -> T) i j x : (i < n)%nat -> (j < m)%nat ->
    mset (mtab n m f) i j x = mtab n m (fun i' j' => if (i' =? i)%nat && (j' =? j)%nat then x else f i' j').
  Proof.
    intros Hi Hj. unfold mset. unfold mtab at 1 4. cbn [nrows]. f_equal. fold (mtab n m f).
    assert (Hlen : length (mcols (mtab n m f)) = m) by apply (mtab_ncols n m f).
    apply (list_ext []).
    { rewrite vset_length, Hlen, map_length, seq_length. reflexivity. }
    rewrite vset_length, Hlen. intros k Hk. rewrite vset_nth, Hlen. apply Nat.ltb_lt in Hj as Hj'. rewrite Hj', andb_true_r.
    change (map (fun j0 => map (fun i0 => if (i0 =? i)%nat && (j0 =? j)%nat then x else f i0 j0) (seq 0 n)) (seq 0 m))
      with (mcols (mtab n m (fun i' j' => if (i' =? i)%nat && (j' =? j)%nat then x else f i' j'))).
    rewrite !mtab_col by assumption.
    destruct (k =? j)%nat eqn:Ek.
    - apply Nat.eqb_eq in Ek. subst k. apply (list_ext x).
      { rewrite vset_length, !vtab_length. reflexivity. }
      rewrite vset_length, vtab_length. intros q Hq. rewrite vset_nth, vtab_length. apply Nat.ltb_lt in Hi as Hi'. rewrite Hi'.
      rewrite !vtab_nth by assumption. rewrite !andb_true_r. reflexivity.
    - apply vtab_ext. intros q Hq. rewrite andb_false_r. reflexivity.
  Qed.
End Generic.

(** ** Vectors of reals *)
Lemma ventry_out x i : (length x <= i)%nat -> ventry x i = 0.
Proof. intros. unfold ventry. apply nth_overflow. assumption. Qed.
Lemma ventry_vt n f q : (q < n)%nat -> ventry (vtab n f) q = f q.
Proof. intros. unfold ventry. apply vtab_nth. assumption. Qed.
Lemma vec_ext x y : length x = length y -> (forall i, (i < length x)%nat -> ventry x i = ventry y i) -> x = y.
Proof. intros Hl Hn. apply (list_ext 0 x y Hl Hn). Qed.
Lemma ventry_map f x i : f 0 = 0 -> ventry (map f x) i = f (ventry x i).
Proof. intros H. unfold ventry. rewrite <- H at 1. apply map_nth. Qed.
Lemma ventry_vscale (k : R) x i : ventry (vscale k x) i = k * ventry x i.
Proof. unfold vscale. rewrite (ventry_map (fun a => (k *. a)%sc)); [reflexivity|]. simpl. ring. Qed.
Lemma ventry_vneg x i : ventry (vneg (T := R) x) i = - ventry x i.
Proof. unfold vneg. rewrite (ventry_map (fun a => (-. a)%sc)); [reflexivity|]. simpl. ring. Qed.
Lemma ventry_vdiv (k : R) x i : ventry (vdiv x k) i = ventry x i / k.
Proof. unfold vdiv. rewrite (ventry_map (fun a => (a /. k)%sc)); [reflexivity|]. simpl. unfold Rdiv. ring. Qed.
Lemma vscale_length (k : R) x : length (vscale k x) = length x. Proof. apply map_length. Qed.
Lemma vneg_length (x : list R) : length (vneg x) = length x. Proof. apply map_length. Qed.
Lemma vdiv_length (k : R) x : length (vdiv x k) = length x. Proof. apply map_length. Qed.
Lemma vopp_vneg x : vopp x = vneg (T := R) x. Proof. reflexivity. Qed.
Lemma ventry_vopp x i : ventry (vopp x) i = - ventry x i. Proof. apply ventry_vneg. Qed.
Lemma vopp_length x : length (vopp x) = length x. Proof. apply map_length. Qed.
Lemma vzeros_length n : length (vzeros (T := R) n) = n. Proof. apply repeat_length. Qed.
Lemma ventry_vzeros n i : ventry (vzeros n) i = 0.
Proof. unfold ventry, vzeros. revert i. induction n as [|n IH]; intros [|i]; simpl; auto. Qed.

Lemma zipwith_length (f : R -> R -> R) x y : length x = length y -> length (zipwith f x y) = length x.
Proof. intros H. unfold zipwith. rewrite map_length, combine_length, H. apply Nat.min_id. Qed.
Lemma ventry_zip f x y i : length x = length y -> f 0 0 = 0 -> ventry (zipwith f x y) i = f (ventry x i) (ventry y i).
Proof.
  intros H H0. unfold zipwith. unfold ventry.
  assert (E : nth i (map (fun p => f (fst p) (snd p)) (combine x y)) 0 = (fun p => f (fst p) (snd p)) (nth i (combine x y) (0, 0))).
  { transitivity (nth i (map (fun p : R * R => f (fst p) (snd p)) (combine x y)) ((fun p : R * R => f (fst p) (snd p)) (0, 0))).
    - simpl. rewrite H0. reflexivity.
    - apply (map_nth (fun p : R * R => f (fst p) (snd p)) (combine x y) (0, 0) i). }
  rewrite E, combine_nth by exact H. reflexivity.
Qed.
Lemma vadd_R x y z : vadd x y = Ok z -> length y = length x /\ length z = length x /\ forall i, ventry z i = ventry x i + ventry y i.
Proof.
  unfold vadd. destruct (length x =? length y)%nat eqn:E; [|discriminate]. apply Nat.eqb_eq in E. intros [= <-].
  split; [auto|]. split; [apply zipwith_length, E|]. intros i. apply ventry_zip; [exact E|simpl; ring].
Qed.
Lemma vsub_R x y z : vsub x y = Ok z -> length y = length x /\ length z = length x /\ forall i, ventry z i = ventry x i - ventry y i.
Proof.
  unfold vsub. destruct (length x =? length y)%nat eqn:E; [|discriminate]. apply Nat.eqb_eq in E. intros [= <-].
  split; [auto|]. split; [apply zipwith_length, E|]. intros i. apply ventry_zip; [exact E|simpl; ring].
Qed.
Lemma vadd_total {T} {HS : Scalar T} (x y : list T) : length x = length y -> exists z, vadd x y = Ok z.
Proof. intros E. unfold vadd. rewrite E, Nat.eqb_refl. eauto. Qed.
Lemma vsub_total {T} {HS : Scalar T} (x y : list T) : length x = length y -> exists z, vsub x y = Ok z.
Proof. intros E. unfold vsub. rewrite E, Nat.eqb_refl. eauto. Qed.

(** ** Matrices of reals *)
Lemma mentry_vt n m f i j : (i < n)%nat -> (j < m)%nat -> mentry (mtab n m f) i j = f i j.
Proof. intros. apply mtab_entry; assumption. Qed.
Lemma mentry_eye n i j : (i < n)%nat -> (j < n)%nat -> mentry (eye n) i j = delta i j.
Proof.
  intros. unfold eye. rewrite mentry_vt by assumption. unfold delta. destruct (Nat.eq_dec i j) as [->|E].
  - rewrite Nat.eqb_refl. reflexivity.
  - apply Nat.eqb_neq in E. rewrite E. reflexivity.
Qed.
Lemma mget_R A i j x : mget A i j = Ok x -> mentry A i j = x.
Proof.
  unfold mget, mentry. destruct (nth_error (mcols A) j) as [c|] eqn:E; [|discriminate].
  destruct (nth_error c i) as [y|] eqn:E2; [|discriminate]. intros [= <-].
  rewrite (nth_error_nth _ _ [] E). apply nth_error_nth, E2.
Qed.
Lemma mget_ok {T} (A : mat T) i j : mat_wf A -> (i < nrows A)%nat -> (j < ncols A)%nat -> exists x, mget A i j = Ok x.
Proof.
  intros Hwf Hi Hj. unfold mget. destruct (nth_error (mcols A) j) as [c|] eqn:E.
  - assert (Hc : length c = nrows A).
    { rewrite <- (wf_col A j Hwf Hj). rewrite (nth_error_nth _ _ [] E). reflexivity. }
    destruct (nth_error c i) as [y|] eqn:E2; [eauto|]. apply nth_error_None in E2. lia.
  - apply nth_error_None in E. unfold ncols in Hj. lia.
Qed.
Lemma mentry_transpose A i j : (i < ncols A)%nat -> (j < nrows A)%nat -> mentry (transpose 0 A) i j = mentry A j i.
Proof. intros. unfold transpose. rewrite mentry_vt by assumption. reflexivity. Qed.

Section Kernels.
  Context {LA : LinAlg R} {HP : ExactProducts LA}.
  Lemma mv_R A x v : mv A x = Ok v -> length x = ncols A /\ length v = nrows A /\
    forall i, (i < nrows A)%nat -> ventry v i = Rsum (ncols A) (fun j => mentry A i j * ventry x j).
  Proof.
    unfold mv. destruct (ncols A =? length x)%nat eqn:E; [|discriminate]. apply Nat.eqb_eq in E. intros [= <-].
    split; [auto|]. split; [apply vtab_length|]. intros i Hi. rewrite ventry_vt by exact Hi. apply exact_mv; auto.
  Qed.
  Lemma mv_total A (x : list R) : length x = ncols A -> exists v, mv A x = Ok v.
  Proof. intros E. unfold mv. rewrite E, Nat.eqb_refl. eauto. Qed.
  Lemma mm_R A B C : mm A B = Ok C -> ncols A = nrows B /\ nrows C = nrows A /\ ncols C = ncols B /\ mat_wf C /\
    forall i j, (i < nrows A)%nat -> (j < ncols B)%nat -> mentry C i j = Rsum (ncols A) (fun k => mentry A i k * mentry B k j).
  Proof.
    unfold mm. destruct (ncols A =? nrows B)%nat eqn:E; [|discriminate]. apply Nat.eqb_eq in E. intros [= <-].
    split; [auto|]. split; [apply mtab_nrows|]. split; [apply mtab_ncols|]. split; [apply mtab_wf|].
    intros i j Hi Hj. rewrite mentry_vt by assumption. apply exact_mm; auto.
  Qed.
  Lemma mm_total (A B : mat R) : ncols A = nrows B -> exists C, mm A B = Ok C.
  Proof. intros E. unfold mm. rewrite E, Nat.eqb_refl. eauto. Qed.
  Lemma dot_R x y d : dot x y = Ok d -> length y = length x /\ d = Rsum (length x) (fun i => ventry x i * ventry y i).
  Proof.
    unfold dot. destruct (length x =? length y)%nat eqn:E; [|discriminate]. apply Nat.eqb_eq in E. intros [= <-].
    split; [auto|]. apply exact_dot, E.
  Qed.
  Lemma dot_norm2 r : la_dot r r = norm2 r * norm2 r.
  Proof.
    rewrite exact_dot by reflexivity. unfold norm2. rewrite sqrt_sqrt; [reflexivity|].
    apply Rsum_nonneg. intros. apply Rle_0_sqr.
  Qed.
End Kernels.
Lemma norm2_nonneg x : 0 <= norm2 x. Proof. apply sqrt_pos. Qed.

(** ** Linear systems *)
Lemma is_solution_scale A x b k : is_solution A x b -> is_solution A (map (Rmult k) x) (map (Rmult k) b).
Proof.
  intros (H1 & H2 & H3). split; [rewrite map_length; exact H1|]. split; [rewrite map_length; exact H2|].
  intros i Hi. rewrite (ventry_map (Rmult k)) by ring. rewrite <- (H3 i Hi), <- Rsum_scal. apply Rsum_ext. intros j Hj.
  rewrite (ventry_map (Rmult k)) by ring. ring.
Qed.
Lemma is_solution_opp A x b : is_solution A x b -> is_solution A (vopp x) (vopp b).
Proof.
  intros (H1 & H2 & H3). split; [rewrite vopp_length; exact H1|]. split; [rewrite vopp_length; exact H2|].
  intros i Hi. rewrite ventry_vopp, <- (H3 i Hi), <- Rsum_opp. apply Rsum_ext. intros j Hj. rewrite ventry_vopp. ring.
Qed.
Lemma delta_sum n i f : (i < n)%nat -> Rsum n (fun j => delta i j * f j) = f i.
Proof.
  intros Hi. rewrite (Rsum_single n i); [|exact Hi|].
  - unfold delta. destruct (Nat.eq_dec i i); [ring|congruence].
  - intros k Hk Hne. unfold delta. destruct (Nat.eq_dec i k); [congruence|ring].
Qed.
(** a solution of an invertible system is the inverse times the right-hand side *)
Lemma inverse_solution A B x b : is_inverse A B -> is_solution A x b ->
  forall i, (i < ncols A)%nat -> ventry x i = Rsum (nrows A) (fun k => mentry B i k * ventry b k).
Proof.
  intros (Hsq & Hr & Hc & Hi) (H1 & H2 & H3) i Hilt.
  assert (E : Rsum (nrows A) (fun k => mentry B i k * ventry b k) =
              Rsum (nrows A) (fun k => Rsum (ncols A) (fun j => mentry B i k * (mentry A k j * ventry x j)))).
  { apply Rsum_ext. intros k Hk. rewrite <- (H3 k Hk), <- Rsum_scal. reflexivity. }
  rewrite E, Rsum_swap.
  rewrite <- (delta_sum (ncols A) i (fun j => ventry x j) Hilt). apply Rsum_ext. intros j Hj.
  rewrite (Rsum_ext _ _ (fun k => mentry B i k * mentry A k j * ventry x j)) by (intros; ring).
  rewrite Rsum_scal_r. destruct (Hi i j) as [_ E2]; [lia|lia|]. rewrite E2. reflexivity.
Qed.
Lemma solution_unique A x x' b : invertible A -> is_solution A x b -> is_solution A x' b -> x = x'.
Proof.
  intros [B HB] Hx Hx'. apply vec_ext.
  - destruct Hx as (E1 & _), Hx' as (E2 & _). congruence.
  - intros i Hi. destruct Hx as (E1 & Hx). rewrite E1 in Hi.
    rewrite (inverse_solution A B x b HB (conj E1 Hx) i Hi), (inverse_solution A B x' b HB Hx' i Hi). reflexivity.
Qed.
Lemma solution_exists A b : invertible A -> length b = nrows A -> exists x, is_solution A x b.
Proof.
  intros [B (Hsq & Hr & Hc & Hi)] Hb. exists (vtab (ncols A) (fun i => Rsum (nrows A) (fun k => mentry B i k * ventry b k))).
  split; [apply vtab_length|]. split; [exact Hb|]. intros i Hilt.
  assert (E : Rsum (ncols A) (fun j => mentry A i j * ventry (vtab (ncols A) (fun i => Rsum (nrows A) (fun k => mentry B i k * ventry b k))) j) =
              Rsum (ncols A) (fun j => Rsum (nrows A) (fun k => mentry A i j * (mentry B j k * ventry b k)))).
  { apply Rsum_ext. intros j Hj. rewrite ventry_vt by exact Hj. rewrite <- Rsum_scal. reflexivity. }
  rewrite E, Rsum_swap, <- (delta_sum (nrows A) i (fun k => ventry b k) Hilt). apply Rsum_ext. intros k Hk.
  rewrite (Rsum_ext _ _ (fun j => mentry A i j * mentry B j k * ventry b k)) by (intros; ring).
  rewrite Rsum_scal_r, <- Hsq. destruct (Hi i k Hilt Hk) as [E1 _]. rewrite E1. reflexivity.
Qed.
