(** Evaluating order conditions in Q(sqrt d) and transferring them to the reals. *)
From Coq Require Import QArith Qreals Qabs Reals Lra.
From Verif Require Import Model.Base Model.Scalar Model.LinAlg Model.Coeffs.
From Verif Require Import Spec.Sums Spec.Trees Proofs.SumsProofs Proofs.TreesProofs Proofs.QuadField.
From Verif Require Export Proofs.ZScaled.
Local Open Scope R_scope.

Lemma nth_map {A B} (f : A -> B) l i da db : f da = db -> nth i (map f l) db = f (nth i l da).
Proof. intros <-. apply map_nth. Qed.

Definition qsum (l : list qs) : qs := fold_right qs_add qs0 l.

Section Q.
  Variable d : Z.
  Hypothesis d_nonneg : (0 <= d)%Z.
  Notation toR := (toR d).

  Lemma toR_0 : toR qs0 = 0.
  Proof. unfold QuadField.toR, qs0, Q2R; simpl. lra. Qed.
  Lemma toR_1 : toR qs1 = 1.
  Proof. unfold QuadField.toR, qs1, Q2R; simpl. lra. Qed.

  Variables (s : nat) (rows : list (list qs)).
  Hypothesis Hrows : length rows = s.
  Hypothesis Hrow : forall r, In r rows -> length r = s.
  Variable a : nat -> nat -> R.
  Hypothesis Ha : forall i j, (i < s)%nat -> (j < s)%nat -> a i j = toR (nth j (nth i rows []) qs0).
  Variable bq : list qs.
  Hypothesis Lb : length bq = s.
  Variable b : nat -> R.
  Hypothesis Hb : forall i, (i < s)%nat -> b i = toR (nth i bq qs0).

  (** The tableau over a common denominator. *)
  Definition scaled (D : Z) : bool := (0 <? D)%Z && forallb (scale_ok D) bq && forallb (forallb (scale_ok D)) rows.
  Definition tab_den : Z := common_den (concat rows ++ bq).

  Lemma scaled_facts D : scaled D = true ->
    (0 < D)%Z /\
    (forall i, (i < s)%nat -> zR d (nth i (map (scale D) bq) zs0) = IZR D * b i) /\
    (forall i j, (i < s)%nat -> (j < s)%nat -> zR d (nth j (nth i (map (map (scale D)) rows) []) zs0) = IZR D * a i j).
  Proof.
    unfold scaled. rewrite !andb_true_iff, Z.ltb_lt, !forallb_forall. intros [[H0 H1] H2]. split; [exact H0|]. split.
    - intros i Hi. rewrite (nth_indep _ zs0 (scale D qs0)) by (rewrite map_length; lia). rewrite map_nth.
      rewrite scale_R by (apply H1, nth_In; lia). rewrite Hb by exact Hi. reflexivity.
    - intros i j Hi Hj. rewrite (nth_map (map (scale D)) rows i [] []) by reflexivity.
      assert (Hl : length (nth i rows []) = s) by (apply Hrow, nth_In; lia).
      rewrite (nth_indep _ zs0 (scale D qs0)) by (rewrite map_length; lia). rewrite map_nth.
      specialize (H2 (nth i rows []) ltac:(apply nth_In; lia)). rewrite forallb_forall in H2.
      rewrite scale_R by (apply H2, nth_In; lia). rewrite Ha by assumption. reflexivity.
  Qed.

  (** zweight t * density t - D^(vertices t) *)
  Definition zdefect (D : Z) (zrows : list (list zs)) (zb : list zs) (t : tree) : zs :=
    zadd (zscal (zdensity t) (zdot d zb (zphi d s zrows t))) (ZS (- D ^ zvertices t) 0).
  Lemma zdefect_R D t : scaled D = true ->
    zR d (zdefect D (map (map (scale D)) rows) (map (scale D) bq) t) =
    IZR D ^ vertices t * (INR (density t) * weight s a b t - 1).
  Proof.
    intros H. destruct (scaled_facts D H) as (H0 & H1 & H2). unfold zdefect.
    rewrite zR_add, zR_scal.
    rewrite (zweight_R d d_nonneg s _ D) with (a := a) (b := b);
      [|rewrite map_length; exact Hrows| |exact H2|rewrite map_length; exact Lb|exact H1].
    - unfold zR. cbn [z0 z1]. rewrite zdensity_ok, zvertices_ok, opp_IZR, <- INR_IZR_INZ, <- pow_IZR. ring.
    - intros r Hr. apply in_map_iff in Hr as (r' & <- & Hr'). rewrite map_length. apply Hrow, Hr'.
  Qed.

  Definition qcheck : tree -> bool :=
    let D := tab_den in
    if scaled D then
      let zrows := map (map (scale D)) rows in
      let zb := map (scale D) bq in
      fun t => let z := zdefect D zrows zb t in (z0 z =? 0)%Z && (z1 z =? 0)%Z
    else fun _ => false.

  Lemma qcheck_ok t : qcheck t = true -> order_condition s a b t.
  Proof.
    unfold qcheck. cbv zeta. destruct (scaled tab_den) eqn:E; [|discriminate].
    rewrite andb_true_iff, !Z.eqb_eq. intros [H1 H2]. pose proof (zdefect_R _ t E) as Hz.
    unfold zR in Hz. rewrite H1, H2 in Hz. destruct (scaled_facts _ E) as (H0 & _).
    unfold order_condition.
    assert (HD : IZR tab_den ^ vertices t <> 0) by (apply pow_nonzero, IZR_neq; lia).
    assert (Hden : INR (density t) <> 0) by (apply not_0_INR; pose proof (density_pos t); lia).
    assert (H : INR (density t) * weight s a b t - 1 = 0).
    { apply (Rmult_eq_reg_l _ _ _ ) with (2 := HD). rewrite <- Hz. ring. }
    apply (Rmult_eq_reg_l (INR (density t))); [|exact Hden]. field_simplify; [|exact Hden]. lra.
  Qed.

  Lemma order_ok p : forallb qcheck (trees_upto p) = true -> has_order s a b p.
  Proof.
    intros H t Ht. rewrite forallb_forall in H. apply qcheck_ok, H, trees_upto_complete, Ht.
  Qed.

  Definition qfail (t : tree) : bool :=
    let D := tab_den in
    scaled D && negb (znorm d (zdefect D (map (map (scale D)) rows) (map (scale D) bq) t) =? 0)%Z.
  Lemma qfail_ok t : qfail t = true -> ~ order_condition s a b t.
  Proof.
    unfold qfail. cbv zeta. rewrite andb_true_iff, negb_true_iff, Z.eqb_neq. intros [E H] Ho.
    apply (zR_norm_neq d d_nonneg) in H. apply H. rewrite zdefect_R by exact E.
    unfold order_condition in Ho. rewrite Ho. field. apply not_0_INR. pose proof (density_pos t). lia.
  Qed.
End Q.

(** The bushy tree with n vertices: conditions sum b_i c_i^(n-1) = 1/n. *)
Definition bushy (n : nat) : tree := Node (repeat (Node []) (n - 1)).

(** ** Tableaux *)
Definition rows_of (A : mat qs) : list (list qs) :=
  map (fun i => map (fun c => nth i c qs0) (mcols A)) (seq 0 (nrows A)).

(** The real tableau is the image of the Q(sqrt d) tableau. *)
Record sc_match (d : Z) (x : solver_coeffs qs) (r : solver_coeffs R) : Prop := {
  m_b : sc_b r = map (toR d) (sc_b x);
  m_c : sc_c r = map (toR d) (sc_c x);
  m_Ar : nrows (sc_A r) = nrows (sc_A x);
  m_A : mcols (sc_A r) = map (map (toR d)) (mcols (sc_A x));
  m_b2 : sc_b2 r = map (toR d) (sc_b2 x);
  m_order : sc_order r = sc_order x;
  m_order2 : sc_order2 r = sc_order2 x;
  m_FSAL : sc_FSAL r = sc_FSAL x;
  m_gamma : sc_gamma r = toR d (sc_gamma x)
}.

(** dimensions of a tableau *)
Definition dims_ok {T} (sc : solver_coeffs T) (s : nat) : bool :=
  (length (sc_b sc) =? s)%nat && (length (sc_c sc) =? s)%nat && (nrows (sc_A sc) =? s)%nat &&
  (length (mcols (sc_A sc)) =? s)%nat && forallb (fun c => (length c =? s)%nat) (mcols (sc_A sc)).

Section Tableau.
  Variables (d : Z) (x : solver_coeffs qs) (r : solver_coeffs R) (s : nat).
  Hypothesis d_nonneg : (0 <= d)%Z.
  Hypothesis Hm : sc_match d x r.
  Hypothesis Hd : dims_ok x s = true.

  Lemma dims_facts : length (sc_b x) = s /\ length (sc_c x) = s /\ nrows (sc_A x) = s /\ length (mcols (sc_A x)) = s /\
     forall c, In c (mcols (sc_A x)) -> length c = s.
  Proof.
    unfold dims_ok in Hd. rewrite !andb_true_iff, !Nat.eqb_eq, forallb_forall in Hd.
    destruct Hd as [[[[H1 H2] H3] H4] H5]. repeat split; auto. intros c Hc. apply Nat.eqb_eq, H5, Hc.
  Qed.

  Lemma tab_a i j : (i < s)%nat -> (j < s)%nat -> mentry (sc_A r) i j = toR d (nth j (nth i (rows_of (sc_A x)) []) qs0).
  Proof.
    intros Hi Hj. destruct dims_facts as (_ & _ & Hr & Hc & Hcol).
    unfold mentry. rewrite (m_A _ _ _ Hm). unfold rows_of. rewrite Hr.
    change (map (fun i0 : nat => map (fun c : list qs => nth i0 c qs0) (mcols (sc_A x))) (seq 0 s))
      with (vtab s (fun i0 => map (fun c : list qs => nth i0 c qs0) (mcols (sc_A x)))).
    rewrite vtab_nth by exact Hi.
    rewrite (nth_map (fun c => nth i c qs0) (mcols (sc_A x)) j [] qs0) by (destruct i; reflexivity).
    rewrite (nth_map (map (toR d)) (mcols (sc_A x)) j [] []) by reflexivity.
    apply nth_map, toR_0.
  Qed.
  Lemma rows_len : length (rows_of (sc_A x)) = s.
  Proof. destruct dims_facts as (_ & _ & Hr & _). unfold rows_of. rewrite map_length, seq_length. exact Hr. Qed.
  Lemma rows_each q : In q (rows_of (sc_A x)) -> length q = s.
  Proof.
    destruct dims_facts as (_ & _ & _ & Hc & _). unfold rows_of. intros Hq. apply in_map_iff in Hq as (i & <- & _).
    rewrite map_length. exact Hc.
  Qed.
  Lemma tab_v (lq : list qs) i : ventry (map (toR d) lq) i = toR d (nth i lq qs0).
  Proof. unfold ventry. apply nth_map, toR_0. Qed.

  Definition order_check_le (bq : list qs) (p : nat) : bool :=
    (length bq =? s)%nat && forallb (qcheck d s (rows_of (sc_A x)) bq) (trees_upto p).
  Definition order_fail (bq : list qs) (t : tree) : bool :=
    (length bq =? s)%nat && qfail d s (rows_of (sc_A x)) bq t.

  Lemma tab_order bq b p : b = map (toR d) bq -> order_check_le bq p = true -> has_order s (mfun (sc_A r)) (vfun b) p.
  Proof.
    unfold order_check_le. rewrite andb_true_iff, Nat.eqb_eq. intros -> [Hl Hc].
    apply (order_ok d d_nonneg s (rows_of (sc_A x)) rows_len rows_each _ tab_a bq Hl).
    - intros i Hi. apply tab_v.
    - exact Hc.
  Qed.
  Lemma tab_fail bq b t : b = map (toR d) bq -> order_fail bq t = true -> ~ order_condition s (mfun (sc_A r)) (vfun b) t.
  Proof.
    unfold order_fail. rewrite andb_true_iff, Nat.eqb_eq. intros -> [Hl Hc].
    apply (qfail_ok d d_nonneg s (rows_of (sc_A x)) rows_len rows_each _ tab_a bq Hl).
    - intros i Hi. apply tab_v.
    - exact Hc.
  Qed.
  Lemma tab_exact bq b p t : b = map (toR d) bq -> order_check_le bq p = true -> vertices t = S p -> order_fail bq t = true ->
    exact_order s (mfun (sc_A r)) (vfun b) p.
  Proof.
    intros Hb H1 H2 H3. split; [eapply tab_order; eassumption|]. exists t. split; [exact H2|]. eapply tab_fail; eassumption.
  Qed.
End Tableau.

(** ** The embedded method: an additional explicit stage with weight gamma *)
Definition ext_rows (s : nat) (rows : list (list qs)) : list (list qs) :=
  map (fun r => r ++ [qs0]) rows ++ [repeat qs0 (S s)].

Section Embedded.
  Variables (d : Z) (x : solver_coeffs qs) (r : solver_coeffs R) (s : nat).
  Hypothesis d_nonneg : (0 <= d)%Z.
  Hypothesis Hm : sc_match d x r.
  Hypothesis Hd : dims_ok x s = true.
  Hypothesis Hb2 : (length (sc_b2 x) =? s)%nat = true.

  Let rows := ext_rows s (rows_of (sc_A x)).
  Let bq := sc_b2 x ++ [sc_gamma x].

  Lemma ext_len : length rows = S s.
  Proof. unfold rows, ext_rows. rewrite app_length, map_length, (rows_len x s Hd). simpl. lia. Qed.
  Lemma ext_each q : In q rows -> length q = S s.
  Proof.
    unfold rows, ext_rows. rewrite in_app_iff. intros [H|[<-|[]]]; [|apply repeat_length].
    apply in_map_iff in H as (q' & <- & Hq). rewrite app_length, (rows_each x s Hd q' Hq). simpl. lia.
  Qed.
  Lemma ext_entry i j : (i < S s)%nat -> (j < S s)%nat ->
    ext_a s (mfun (sc_A r)) i j = toR d (nth j (nth i rows []) qs0).
  Proof.
    intros Hi Hj. unfold ext_a, rows, ext_rows. destruct (Nat.ltb_spec i s) as [Hl|Hl]; cbn [andb].
    - rewrite app_nth1 by (rewrite map_length, (rows_len x s Hd); exact Hl).
      rewrite (nth_indep _ [] ([] ++ [qs0])) by (rewrite map_length, (rows_len x s Hd); exact Hl).
      rewrite (map_nth (fun r => r ++ [qs0])).
      assert (Hlen : length (nth i (rows_of (sc_A x)) []) = s)
        by (apply (rows_each x s Hd), nth_In; rewrite (rows_len x s Hd); exact Hl).
      destruct (Nat.ltb_spec j s) as [Hl2|Hl2].
      + rewrite app_nth1 by lia. apply (tab_a d x r s Hm Hd); assumption.
      + rewrite app_nth2 by lia. rewrite Hlen. replace (j - s)%nat with O by lia. symmetry. apply toR_0.
    - rewrite app_nth2 by (rewrite map_length, (rows_len x s Hd); lia).
      rewrite map_length, (rows_len x s Hd). replace (i - s)%nat with O by lia. cbn [nth].
      rewrite nth_repeat. symmetry. apply toR_0.
  Qed.
  Lemma ext_w i : (i < S s)%nat -> ext_b s (vfun (sc_b2 r)) (sc_gamma r) i = toR d (nth i bq qs0).
  Proof.
    intros Hi. apply Nat.eqb_eq in Hb2. unfold ext_b, bq. destruct (Nat.ltb_spec i s) as [Hl|Hl].
    - rewrite app_nth1 by lia. unfold vfun. rewrite (m_b2 _ _ _ Hm). apply tab_v.
    - rewrite app_nth2 by lia. replace (i - length (sc_b2 x))%nat with O by lia. apply (m_gamma _ _ _ Hm).
  Qed.
  Lemma ext_bl : length bq = S s.
  Proof. apply Nat.eqb_eq in Hb2. unfold bq. rewrite app_length. simpl. lia. Qed.

  Lemma ext_order p : forallb (qcheck d (S s) rows bq) (trees_upto p) = true ->
    has_order (S s) (ext_a s (mfun (sc_A r))) (ext_b s (vfun (sc_b2 r)) (sc_gamma r)) p.
  Proof. apply (order_ok d d_nonneg (S s) rows ext_len ext_each _ ext_entry bq ext_bl _ ext_w). Qed.
  Lemma ext_fail t : qfail d (S s) rows bq t = true ->
    ~ order_condition (S s) (ext_a s (mfun (sc_A r))) (ext_b s (vfun (sc_b2 r)) (sc_gamma r)) t.
  Proof. apply (qfail_ok d d_nonneg (S s) rows ext_len ext_each _ ext_entry bq ext_bl _ ext_w). Qed.
  Lemma ext_exact p t : forallb (qcheck d (S s) rows bq) (trees_upto p) = true -> vertices t = S p ->
    qfail d (S s) rows bq t = true ->
    exact_order (S s) (ext_a s (mfun (sc_A r))) (ext_b s (vfun (sc_b2 r)) (sc_gamma r)) p.
  Proof.
    intros H1 H2 H3. split; [apply ext_order, H1|]. exists t. split; [exact H2|]. apply ext_fail, H3.
  Qed.
End Embedded.
