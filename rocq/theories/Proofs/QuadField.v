(** Exact computation in Q(sqrt d): a scalar instance used to evaluate the tableaux inside Coq, and its embedding
    in the reals. *)
From Coq Require Import QArith Qreals Qabs Reals Lra.
From Verif Require Import Model.Base Model.Scalar Model.LinAlg Spec.Sums Proofs.SumsProofs.
Local Open Scope R_scope.

Record qs := QS { q0 : Q; q1 : Q }.

Definition Qlit (m e : Z) : Q :=
  match e with
  | Z0 => inject_Z m
  | Zpos p => inject_Z (m * Z.pow_pos 10 p)
  | Zneg p => Qred (m # Z.to_pos (Z.pow_pos 10 p))
  end.

Section Field.
  Variable d : Z.
  Definition qs_add (x y : qs) := QS (Qred (q0 x + q0 y)) (Qred (q1 x + q1 y)).
  Definition qs_opp (x : qs) := QS (Qopp (q0 x)) (Qopp (q1 x)).
  Definition qs_sub (x y : qs) := QS (Qred (q0 x - q0 y)) (Qred (q1 x - q1 y)).
  Definition qs_mul (x y : qs) :=
    QS (Qred (q0 x * q0 y + inject_Z d * (q1 x * q1 y))) (Qred (q0 x * q1 y + q1 x * q0 y)).
  Definition qs_norm (x : qs) : Q := Qred (q0 x * q0 x - inject_Z d * (q1 x * q1 x)).
  Definition qs_inv (x : qs) := QS (Qred (q0 x / qs_norm x)) (Qred (- q1 x / qs_norm x)).
  Definition qs_div (x y : qs) := qs_mul x (qs_inv y).
  Definition qs_eqb (x y : qs) : bool := Qeq_bool (q0 x) (q0 y) && Qeq_bool (q1 x) (q1 y).
  Definition qs_lit (m e : Z) : qs := QS (Qlit m e) 0.
  Definition qs_sqrt (x : qs) : qs := if qs_eqb x (QS (inject_Z d) 0) then QS 0 1 else QS 0 0.
  (** Comparisons are only used on rational numbers (rows sums against abscissae). *)
  Definition qs_leb (x y : qs) : bool := Qle_bool (q0 x) (q0 y).
  Definition qs_abs (x : qs) : qs := QS (Qabs (q0 x)) (q1 x).

  Definition QScalar : Scalar qs := {|
    sadd := qs_add; ssub := qs_sub; smul := qs_mul; sdiv := qs_div; sopp := qs_opp;
    sltb := fun a b => negb (qs_leb b a); sleb := qs_leb; seqb := qs_eqb;
    sabs := qs_abs; ssqrt := qs_sqrt; spow := fun a _ => a; slit := qs_lit; sfinite := fun _ => true
  |}.

  Definition toR (x : qs) : R := Q2R (q0 x) + Q2R (q1 x) * sqrt (IZR d).

  Lemma Q2R_red q : Q2R (Qred q) = Q2R q.
  Proof. apply Qeq_eqR, Qred_correct. Qed.
  Lemma Q2R_inj z : Q2R (inject_Z z) = IZR z.
  Proof. unfold Q2R; simpl. field. Qed.

  Lemma toR_add x y : toR (qs_add x y) = toR x + toR y.
  Proof. unfold toR, qs_add, qs_sub, qs_mul, qs_opp; cbn [q0 q1]. rewrite !Q2R_red, !Q2R_plus. ring. Qed.
  Lemma toR_opp x : toR (qs_opp x) = - toR x.
  Proof. unfold toR, qs_add, qs_sub, qs_mul, qs_opp; cbn [q0 q1]. rewrite !Q2R_opp. ring. Qed.
  Lemma toR_sub x y : toR (qs_sub x y) = toR x - toR y.
  Proof. unfold toR, qs_add, qs_sub, qs_mul, qs_opp; cbn [q0 q1]. rewrite !Q2R_red, !Q2R_minus. ring. Qed.

  Hypothesis d_nonneg : (0 <= d)%Z.
  Lemma sqrt_d : sqrt (IZR d) * sqrt (IZR d) = IZR d.
  Proof. apply sqrt_sqrt. apply IZR_le in d_nonneg. exact d_nonneg. Qed.

  Lemma toR_mul x y : toR (qs_mul x y) = toR x * toR y.
  Proof.
    unfold toR, qs_add, qs_sub, qs_mul, qs_opp; cbn [q0 q1]. rewrite !Q2R_red, !Q2R_plus, !Q2R_mult, Q2R_inj.
    transitivity (Q2R (q0 x) * Q2R (q0 y) + sqrt (IZR d) * sqrt (IZR d) * (Q2R (q1 x) * Q2R (q1 y)) +
      (Q2R (q0 x) * Q2R (q1 y) + Q2R (q1 x) * Q2R (q0 y)) * sqrt (IZR d)); [rewrite sqrt_d; ring|ring].
  Qed.

  Lemma toR_inv x : ~ (qs_norm x == 0)%Q -> toR (qs_inv x) = / toR x.
  Proof.
    intros Hn. unfold toR at 1. unfold qs_inv. cbn [q0 q1]. rewrite !Q2R_red.
    assert (HnR : Q2R (qs_norm x) <> 0).
    { intros H. apply Hn. apply eqR_Qeq. rewrite H. unfold Q2R; simpl. lra. }
    rewrite !Q2R_div, Q2R_opp by exact Hn.
    assert (Hnorm : toR x * (Q2R (q0 x) - Q2R (q1 x) * sqrt (IZR d)) = Q2R (qs_norm x)).
    { unfold qs_norm, toR. rewrite Q2R_red, Q2R_minus, !Q2R_mult, Q2R_inj.
      transitivity (Q2R (q0 x) * Q2R (q0 x) - sqrt (IZR d) * sqrt (IZR d) * (Q2R (q1 x) * Q2R (q1 x))); [ring|].
      rewrite sqrt_d. ring. }
    assert (Hx : toR x <> 0). { intros H. rewrite H in Hnorm. apply HnR. rewrite <- Hnorm. ring. }
    apply (Rmult_eq_reg_l (toR x)); [|exact Hx]. rewrite Rinv_r by exact Hx.
    apply (Rmult_eq_reg_r (Q2R (qs_norm x))); [|exact HnR].
    transitivity (toR x * (Q2R (q0 x) - Q2R (q1 x) * sqrt (IZR d))); [field; exact HnR|]. rewrite Hnorm. ring.
  Qed.
  Lemma toR_div x y : ~ (qs_norm y == 0)%Q -> toR (qs_div x y) = toR x / toR y.
  Proof. intros H. unfold qs_div, Rdiv. rewrite toR_mul, toR_inv by exact H. reflexivity. Qed.

  Lemma toR_eqb x y : qs_eqb x y = true -> toR x = toR y.
  Proof.
    unfold qs_eqb. rewrite andb_true_iff. intros [H1 H2].
    apply Qeq_bool_eq in H1, H2. unfold toR. rewrite (Qeq_eqR _ _ H1), (Qeq_eqR _ _ H2). reflexivity.
  Qed.
  Lemma toR_lit m e : toR (qs_lit m e) = Rlit m e.
  Proof.
    unfold toR, qs_lit, Rlit, Qlit. cbn [q0 q1].
    replace (Q2R 0) with 0 by (unfold Q2R; simpl; lra). rewrite Rmult_0_l, Rplus_0_r.
    destruct e as [|p|p].
    - apply Q2R_inj.
    - rewrite Q2R_inj, mult_IZR. reflexivity.
    - rewrite Q2R_red. unfold Q2R. cbn [Qnum Qden]. rewrite Z2Pos.id; [reflexivity|].
      change (Z.pow_pos 10 p) with (10 ^ Zpos p)%Z. apply Z.pow_pos_nonneg; lia.
  Qed.
  (** An element of nonzero norm is not 0. *)
  Lemma toR_norm_neq x y : Qeq_bool (qs_norm (qs_sub x y)) 0 = false -> toR x <> toR y.
  Proof.
    intros Hn. apply Qeq_bool_neq in Hn.
    assert (HnR : Q2R (qs_norm (qs_sub x y)) <> 0).
    { intros H. apply Hn. apply eqR_Qeq. rewrite H. unfold Q2R; simpl. lra. }
    intros Hxy. apply HnR. set (z := qs_sub x y).
    assert (Hz : toR z = 0) by (unfold z; rewrite toR_sub, Hxy; ring).
    transitivity (toR z * (Q2R (q0 z) - Q2R (q1 z) * sqrt (IZR d))); [|rewrite Hz; ring].
    unfold qs_norm, toR. rewrite Q2R_red, Q2R_minus, !Q2R_mult, Q2R_inj.
    transitivity (Q2R (q0 z) * Q2R (q0 z) - sqrt (IZR d) * sqrt (IZR d) * (Q2R (q1 z) * Q2R (q1 z))); [|ring].
    rewrite sqrt_d. ring.
  Qed.
  (** A rational number *)
  Lemma toR_rational x : Qeq_bool (q1 x) 0 = true -> toR x = Q2R (q0 x).
  Proof.
    intros H. apply Qeq_bool_eq in H. unfold toR. rewrite (Qeq_eqR _ _ H).
    replace (Q2R 0) with 0 by (unfold Q2R; simpl; lra). ring.
  Qed.
  Lemma toR_neq x y : Qeq_bool (q1 x) 0 = true -> Qeq_bool (q1 y) 0 = true -> Qeq_bool (q0 x) (q0 y) = false -> toR x <> toR y.
  Proof.
    intros H1 H2 H3 H. rewrite !toR_rational in H by assumption.
    apply Qeq_bool_neq in H3. apply H3. apply eqR_Qeq, H.
  Qed.
End Field.
