(** Dense output: weights satisfying the moment conditions are the interpolation weights. *)
From Coq Require Import QArith Reals Lra.
From Verif Require Import Model.Base Model.Scalar Model.LinAlg Model.Enums Model.Coeffs Model.Collocation Model.IrkCoeffs.
From Verif Require Import Spec.Sums Spec.CollocationSpec Spec.Trees Proofs.SumsProofs Proofs.CollocationProofs.
From Verif Require Import Proofs.QuadField Proofs.OrderProofs Proofs.IrkCoeffsProofs.
Local Open Scope R_scope.

Lemma Rprod_zero n f k : (k < n)%nat -> f k = 0 -> Rprod n f = 0.
Proof.
  induction n as [|n IH]; intros Hk Hf; [lia|]. cbn [Rprod].
  destruct (Nat.eq_dec k n) as [->|Hn]; [rewrite Hf; ring|]. rewrite IH by (try assumption; lia). ring.
Qed.
Lemma Rprod_one n f : (forall k, (k < n)%nat -> f k = 1) -> Rprod n f = 1.
Proof. induction n as [|n IH]; intros H; [reflexivity|]. cbn [Rprod]. rewrite H, IH by (intros; try apply H; lia). ring. Qed.

Lemma lagrange_delta c i j : (i < length c)%nat -> (j < length c)%nat ->
  (forall i j, (i < length c)%nat -> (j < length c)%nat -> i <> j -> ventry c i <> ventry c j) ->
  lagrange c i (ventry c j) = if (j =? i)%nat then 1 else 0.
Proof.
  intros Hi Hj Hd. unfold lagrange. destruct (Nat.eqb_spec j i) as [->|Hn].
  - apply Rprod_one. intros k Hk. destruct (Nat.eqb_spec k i); [reflexivity|]. field.
    intros H. apply (Hd i k); auto. lra.
  - apply (Rprod_zero _ _ j Hj). destruct (Nat.eqb_spec j i); [contradiction|]. unfold Rdiv. ring.
Qed.

Lemma Rsum_lsum {A} n (l : list A) (f : nat -> A -> R) :
  Rsum n (fun j => lsum (map (f j) l)) = lsum (map (fun t => Rsum n (fun j => f j t)) l).
Proof.
  induction l as [|t l IH]; simpl.
  - apply Rsum_0. reflexivity.
  - rewrite Rsum_plus, IH. reflexivity.
Qed.
Lemma lsum_ext {A} (l : list A) (f g : A -> R) : (forall t, In t l -> f t = g t) -> lsum (map f l) = lsum (map g l).
Proof. induction l as [|t l IH]; intros H; simpl; [reflexivity|]. rewrite H, IH by (intros; try apply H; simpl; auto). reflexivity. Qed.

Section Unique.
  Context {E : Env R} {LA : LinAlg R} {X : ExactProducts LA}.
  Variables (c : list R) (theta : R) (v : list R).
  Hypothesis H2 : (2 <= length c)%nat.
  Hypothesis Hdist : forall i j, (i < length c)%nat -> (j < length c)%nat -> i <> j -> ventry c i <> ventry c j.
  Hypothesis Lv : length v = length c.
  Hypothesis Hmom : forall k, (k < length c)%nat ->
    Rsum (length c) (fun j => ventry v j * ventry c j ^ k) = theta ^ S k / INR (S k).

  Lemma dense_unique B : collocation_interpolate_coeffs c = Ok B -> project_b theta (length c) B = Ok v.
  Proof.
    intros HB. rewrite coll_matrix in HB. injection HB as <-.
    destruct (project_value c theta ltac:(lia)) as (w & Hw & Lw & Hi). rewrite Hw. f_equal.
    apply (list_ext_nth 0); [lia|]. intros i Hlt. rewrite Lw in Hlt. fold (ventry w i) (ventry v i).
    rewrite Hi by exact Hlt.
    transitivity (Rsum (length c) (fun j => ventry v j * lagrange c i (ventry c j))).
    - rewrite (Rsum_ext (length c) (fun j => ventry v j * lagrange c i (ventry c j))
        (fun j => lsum (map (fun t => ventry v j * (ventry c j ^ coll_order t * term_value (assign c 1) t / coll_d c i)) (coll_poly (length c) i)))).
      + rewrite Rsum_lsum. apply lsum_ext. intros t Ht.
        assert (Hg : (coll_order t < length c)%nat).
        { pose proof (good_poly_2 c i Hlt) as G. unfold good_poly in G. rewrite Forall_forall in G. apply (G t Ht). }
        unfold tcoeff. transitivity (theta ^ S (coll_order t) / INR (S (coll_order t)) * (term_value (assign c 1) t / coll_d c i)).
        * rewrite S_INR'. unfold Rdiv. ring.
        * rewrite <- Hmom by exact Hg. rewrite <- Rsum_scal_r. apply Rsum_ext. intros j Hj. unfold Rdiv. ring.
      + intros j Hj. rewrite <- lagrange_value by assumption. unfold Rdiv.
        unfold sum_value. induction (coll_poly (length c) i) as [|t l IH]; simpl; [ring|].
        rewrite <- IH. rewrite (term_split c (ventry c j) t). unfold Rdiv. ring.
    - rewrite (Rsum_single _ i); [|exact Hlt|].
      + rewrite lagrange_delta by assumption. rewrite Nat.eqb_refl. ring.
      + intros j Hj Hne. rewrite lagrange_delta by assumption. destruct (Nat.eqb_spec j i); [contradiction|ring].
  Qed.
End Unique.

(** The zero weights, theta = 0. *)
Lemma dense_zero {E : Env R} {LA : LinAlg R} {X : ExactProducts LA} c B : (2 <= length c)%nat ->
  (forall i j, (i < length c)%nat -> (j < length c)%nat -> i <> j -> ventry c i <> ventry c j) ->
  collocation_interpolate_coeffs c = Ok B -> project_b 0 (length c) B = Ok (repeat 0 (length c)).
Proof.
  intros H2 Hd HB. apply (dense_unique c 0 (repeat 0 (length c)) H2 Hd (repeat_length _ _)); [|exact HB].
  intros k Hk. simpl. rewrite Rsum_0; [unfold Rdiv; ring|]. intros j Hj. unfold ventry. rewrite nth_repeat. ring.
Qed.

(** ** Checking the hypotheses in Q(sqrt d) *)
Section Check.
  Variables (d : Z).
  Hypothesis d_nonneg : (0 <= d)%Z.
  Fixpoint qs_pow (x : qs) (n : nat) : qs := match n with O => qs1 | S m => qs_mul d x (qs_pow x m) end.
  Lemma qs_pow_R x n : toR d (qs_pow x n) = toR d x ^ n.
  Proof. induction n as [|n IH]; simpl; [apply toR_1|]. rewrite toR_mul, IH by exact d_nonneg. reflexivity. Qed.
  Definition qmoment (v c : list qs) (k : nat) : qs :=
    qsum (map (fun p => qs_mul d (fst p) (qs_pow (snd p) k)) (combine v c)).
  Lemma qmoment_R n v c k : length v = n -> length c = n ->
    toR d (qmoment v c k) = Rsum n (fun j => toR d (nth j v qs0) * toR d (nth j c qs0) ^ k).
  Proof.
    unfold qmoment. revert v c. induction n as [|n IH]; intros [|a v] [|b c] Hv Hc; try discriminate; [apply toR_0|].
    rewrite Rsum_shift. simpl. rewrite toR_add, toR_mul, qs_pow_R by exact d_nonneg. f_equal. apply IH; auto.
  Qed.
  Definition mom_check (v c : list qs) (theta : qs) (s : nat) : bool :=
    forallb (fun k => qs_eqb (qs_mul d (QS (inject_Z (Z.of_nat (S k))) 0) (qmoment v c k)) (qs_pow theta (S k))) (seq 0 s).
  Lemma mom_check_ok v c theta s : length v = s -> length c = s -> mom_check v c theta s = true ->
    forall k, (k < s)%nat ->
    Rsum s (fun j => ventry (map (toR d) v) j * ventry (map (toR d) c) j ^ k) = toR d theta ^ S k / INR (S k).
  Proof.
    intros Hv Hc H k Hk. unfold mom_check in H. rewrite forallb_forall in H. specialize (H k ltac:(apply in_seq; lia)).
    apply (toR_eqb d) in H. rewrite toR_mul, (qmoment_R s), qs_pow_R in H by assumption.
    rewrite (toR_rational d (QS (inject_Z _) 0)) in H by reflexivity. cbn [q0] in H. rewrite Q2R_inj, <- INR_IZR_INZ in H.
    rewrite <- H. rewrite (Rsum_ext s _ (fun j => toR d (nth j v qs0) * toR d (nth j c qs0) ^ k)) by (intros j Hj; rewrite !tab_v; reflexivity).
    field. apply not_0_INR. lia.
  Qed.
  Definition distinct_check (c : list qs) (s : nat) : bool :=
    forallb (fun i => forallb (fun j => (i =? j)%nat ||
       negb (Qeq_bool (qs_norm d (qs_sub (nth i c qs0) (nth j c qs0))) 0)) (seq 0 s)) (seq 0 s).
  Lemma distinct_check_ok c s : distinct_check c s = true ->
    forall i j, (i < s)%nat -> (j < s)%nat -> i <> j -> ventry (map (toR d) c) i <> ventry (map (toR d) c) j.
  Proof.
    intros H i j Hi Hj Hn. unfold distinct_check in H. rewrite forallb_forall in H. specialize (H i ltac:(apply in_seq; lia)).
    rewrite forallb_forall in H. specialize (H j ltac:(apply in_seq; lia)).
    rewrite orb_true_iff, Nat.eqb_eq, negb_true_iff in H. destruct H as [H|H]; [contradiction|].
    rewrite !tab_v. apply toR_norm_neq; assumption.
  Qed.
End Check.

(** For a tableau with dense output. *)
Section Method.
  Context {E : Env R} {LA : LinAlg R} {X : ExactProducts LA}.
  Variables (d : Z) (x : solver_coeffs qs) (r : solver_coeffs R) (s : nat).
  Hypothesis Hm : sc_match d x r.
  Hypothesis HB : collocation_interpolate_coeffs (sc_c r) = Ok (sc_b_interp r).
  Hypothesis Hchk : ((0 <=? d)%Z && (2 <=? s)%nat && dims_ok x s && distinct_check d (sc_c x) s && mom_check d (sc_b x) (sc_c x) qs1 s) = true.

  Lemma dense_facts : (0 <= d)%Z /\ (2 <= s)%nat /\ dims_ok x s = true /\ length (sc_c r) = s /\
    (forall i j, (i < s)%nat -> (j < s)%nat -> i <> j -> ventry (sc_c r) i <> ventry (sc_c r) j) /\
    mom_check d (sc_b x) (sc_c x) qs1 s = true.
  Proof.
    clear HB. rewrite !andb_true_iff, Z.leb_le, Nat.leb_le in Hchk. destruct Hchk as [[[[H1 H2] H3] H4] H5].
    destruct (dims_facts x s H3) as (_ & Lc & _).
    repeat (split; [assumption|]). rewrite (m_c _ _ _ Hm). split; [rewrite map_length; exact Lc|]. split; [|exact H5].
    apply distinct_check_ok; assumption.
  Qed.
  Lemma dense_at_1 : project_b 1 s (sc_b_interp r) = Ok (sc_b r).
  Proof.
    destruct dense_facts as (H1 & H2 & H3 & L & Hd & Hb). destruct (dims_facts x s H3) as (Lb & Lc & _).
    rewrite <- L. apply (dense_unique (sc_c r) 1 (sc_b r)); rewrite ?L; try assumption.
    - rewrite (m_b _ _ _ Hm), map_length. exact Lb.
    - intros k Hk. rewrite (m_b _ _ _ Hm), (m_c _ _ _ Hm).
      rewrite (mom_check_ok d H1 _ _ qs1 s Lb Lc Hb k Hk), toR_1. reflexivity.
  Qed.
  Lemma dense_at_0 : project_b 0 s (sc_b_interp r) = Ok (repeat 0 s).
  Proof.
    destruct dense_facts as (H1 & H2 & H3 & L & Hd & Hb). rewrite <- L. apply dense_zero; rewrite ?L; assumption.
  Qed.
  Definition row_of (A : mat R) (n i : nat) : list R := vtab n (fun j => mentry A i j).
  Lemma dense_at_ci i : (i < s)%nat ->
    mom_check d (nth i (rows_of (sc_A x)) []) (sc_c x) (nth i (sc_c x) qs0) s = true ->
    project_b (ventry (sc_c r) i) s (sc_b_interp r) = Ok (row_of (sc_A r) s i).
  Proof.
    intros Hi Hc. destruct dense_facts as (H1 & H2 & H3 & L & Hd & Hb). destruct (dims_facts x s H3) as (Lb & Lc & _).
    assert (Lr : length (nth i (rows_of (sc_A x)) []) = s) by (apply (rows_each x s H3), nth_In; rewrite (rows_len x s H3); exact Hi).
    rewrite <- L. apply (dense_unique (sc_c r) (ventry (sc_c r) i)); rewrite ?L; try assumption.
    - apply vtab_length.
    - intros k Hk. rewrite (m_c _ _ _ Hm). rewrite (tab_v d (sc_c x) i).
      rewrite <- (mom_check_ok d H1 _ _ _ s Lr Lc Hc k Hk). apply Rsum_ext. intros j Hj. f_equal.
      rewrite tab_v. unfold ventry, row_of. rewrite vtab_nth by exact Hj. apply (tab_a d x r s Hm H3); assumption.
  Qed.
End Method.
