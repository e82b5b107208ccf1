From Coq Require Import Reals Lra.
From Coquelicot Require Import Coquelicot.
From Verif Require Import Model.Base Model.Scalar Model.LinAlg Model.Collocation.
From Verif Require Import Spec.Sums Spec.CollocationSpec Proofs.SumsProofs.
Local Open Scope R_scope.

(** ** expand *)
Lemma term_value_app v a b : term_value v (a ++ b) = term_value v a * term_value v b.
Proof. induction a as [|x a IH]; simpl; [ring|]. rewrite IH. ring. Qed.
Lemma sum_value_app v a b : sum_value v (a ++ b) = sum_value v a + sum_value v b.
Proof. induction a as [|x a IH]; simpl; [ring|]. rewrite IH. ring. Qed.
Lemma sum_value_map_app v t c : sum_value v (map (fun cj => t ++ cj) c) = term_value v t * sum_value v c.
Proof. induction c as [|x c IH]; simpl; [ring|]. rewrite IH, term_value_app. ring. Qed.
Lemma expand_value v c1 c2 : sum_value v (expand c1 c2) = sum_value v c1 * sum_value v c2.
Proof.
  unfold expand. induction c1 as [|t c1 IH]; simpl; [ring|].
  rewrite sum_value_app, IH, sum_value_map_app. ring.
Qed.
Lemma expand_length c1 c2 : length (expand c1 c2) = (length c1 * length c2)%nat.
Proof. unfold expand. induction c1 as [|t c1 IH]; simpl; [reflexivity|]. rewrite app_length, map_length, IH. reflexivity. Qed.
Lemma expand_in t c1 c2 : In t (expand c1 c2) <-> exists a b, In a c1 /\ In b c2 /\ t = a ++ b.
Proof.
  unfold expand. rewrite in_flat_map. split.
  - intros (a & Ha & Hb). apply in_map_iff in Hb as (b & <- & Hb). eauto.
  - intros (a & b & Ha & Hb & ->). exists a. split; [exact Ha|]. apply in_map_iff. eauto.
Qed.

(** ** The numerators *)
Section Poly.
  Variables (i : nat).
  Definition cstep (ci : coeff_list) (j : nat) : coeff_list :=
    if (i =? j)%nat then ci else match ci with [] => [[(-1)%Z]; [Z.of_nat j]] | _ => expand ci [[(-1)%Z]; [Z.of_nat j]] end.

  (** number of j < k with j <> i *)
  Definition others (k : nat) : nat := if (i <? k)%nat then k - 1 else k.

  Lemma coll_poly_S k : coll_poly (S k) i = cstep (coll_poly k i) k.
  Proof. unfold coll_poly. rewrite seq_S, fold_left_app. reflexivity. Qed.

  Lemma coll_poly_inv k :
    (others k = O /\ coll_poly k i = []) \/
    (others k <> O /\ coll_poly k i <> [] /\
     (forall t, In t (coll_poly k i) -> length t = others k /\
        forall z, In z t -> z = (-1)%Z \/ exists j, (j < k)%nat /\ z = Z.of_nat j) /\
     forall v, sum_value v (coll_poly k i) =
               Rprod k (fun j => if (j =? i)%nat then 1 else v (-1)%Z + v (Z.of_nat j))).
  Proof.
    induction k as [|k IH]; [left; split; reflexivity|].
    rewrite coll_poly_S. unfold cstep. destruct (i =? k)%nat eqn:Eik.
    - apply Nat.eqb_eq in Eik. subst k.
      assert (Ho : others (S i) = others i).
      { unfold others. rewrite Nat.ltb_irrefl. replace (i <? S i)%nat with true by (symmetry; apply Nat.ltb_lt; lia). lia. }
      rewrite Ho. destruct IH as [IH|(H1 & H2 & H3 & H4)]; [left; exact IH|].
      right. split; [exact H1|]. split; [exact H2|]. split.
      + intros t Ht. destruct (H3 t Ht) as [L Hz]. split; [exact L|].
        intros z Hin. destruct (Hz z Hin) as [|(j & Hj & ->)]; [auto|right; exists j; split; [lia|reflexivity]].
      + intros v. rewrite H4. simpl. rewrite Nat.eqb_refl. ring.
    - apply Nat.eqb_neq in Eik.
      assert (Ho : others (S k) = S (others k)).
      { unfold others. destruct (Nat.ltb_spec i (S k)), (Nat.ltb_spec i k); lia. }
      right. split; [rewrite Ho; discriminate|].
      destruct IH as [[Ho0 ->]|(H1 & H2 & H3 & H4)].
      + split; [discriminate|]. split.
        * intros t [<-|[<-|[]]]; (split; [simpl; lia|]); intros z [<-|[]].
          -- left; reflexivity.
          -- right. exists k. split; [lia|reflexivity].
        * intros v. simpl. replace (k =? i)%nat with false by (symmetry; apply Nat.eqb_neq; lia).
          assert (HP : Rprod k (fun j => if (j =? i)%nat then 1 else v (-1)%Z + v (Z.of_nat j)) = 1).
          { unfold others in Ho0. destruct (i <? k)%nat eqn:E in Ho0.
            - apply Nat.ltb_lt in E. assert (k = 1%nat) by lia. assert (Hi0 : i = O) by lia. subst k. rewrite Hi0. simpl. ring.
            - subst k. reflexivity. }
          rewrite HP. unfold term_value; simpl. ring.
      + destruct (coll_poly k i) as [|t0 ts] eqn:Ec; [contradiction|].
        split; [discriminate|]. split.
        * intros t Ht. apply expand_in in Ht as (a & b & Ha & Hb & ->).
          destruct (H3 a Ha) as [La Hza]. destruct Hb as [<-|[<-|[]]].
          -- split; [rewrite app_length; simpl; lia|]. intros z Hz. apply in_app_or in Hz as [Hz|[<-|[]]]; [|auto].
             destruct (Hza z Hz) as [|(j & Hj & ->)]; [auto|right; exists j; split; [lia|reflexivity]].
          -- split; [rewrite app_length; simpl; lia|]. intros z Hz. apply in_app_or in Hz as [Hz|[<-|[]]].
             ++ destruct (Hza z Hz) as [|(j & Hj & ->)]; [auto|right; exists j; split; [lia|reflexivity]].
             ++ right. exists k. split; [lia|reflexivity].
        * intros v. rewrite expand_value, H4. cbn [Rprod].
          replace (k =? i)%nat with false by (symmetry; apply Nat.eqb_neq; lia).
          unfold sum_value, term_value; simpl. ring.
  Qed.
End Poly.

Lemma others_lt i n : (i < n)%nat -> others i n = (n - 1)%nat.
Proof. intros H. unfold others. apply Nat.ltb_lt in H. rewrite H. reflexivity. Qed.

(** ** Real-number reading of the model's arithmetic *)
Lemma lit1 : slit 10 (-1) = 1 :> R.
Proof. simpl. unfold Rlit. change (Z.pow_pos 10 1) with 10%Z. lra. Qed.

Lemma coll_d_R (c : list R) i : coll_d c i = Rprod (length c) (fun j => if (j =? i)%nat then 1 else ventry c i - ventry c j).
Proof.
  unfold coll_d. rewrite lit1. generalize (length c) as n.
  induction n as [|n IH]; [reflexivity|]. rewrite seq_S, fold_left_app. cbn [fold_left Rprod Nat.add]. rewrite IH.
  destruct (n =? i)%nat; [ring|]. reflexivity.
Qed.

Lemma foldR_app {A X} (f : X -> A -> res A) l1 l2 a :
  foldR f (l1 ++ l2) a = rbind (foldR f l1 a) (foldR f l2).
Proof. revert a; induction l1 as [|x l1 IH]; intros a; simpl; [reflexivity|]. destruct (f x a); simpl; auto. Qed.

(** The assignment x := x, c_j := -c_j *)
Definition assign (c : list R) (x : R) (z : Z) : R := if (z =? -1)%Z then x else - ventry c (Z.to_nat z).

Definition valid_term (n : nat) (t : list Z) : Prop :=
  forall z, In z t -> z = (-1)%Z \/ exists j, (j < n)%nat /\ z = Z.of_nat j.

Lemma term_split c x t : term_value (assign c x) t = x ^ coll_order t * term_value (assign c 1) t.
Proof.
  induction t as [|z t IH]; simpl; [ring|]. rewrite IH. unfold assign at 1 3, coll_order. simpl.
  destruct (Z.eqb_spec z (-1)) as [->|Hn].
  - destruct (Z.eq_dec (-1) (-1)); [|contradiction]. simpl. ring.
  - destruct (Z.eq_dec z (-1)); [contradiction|]. ring.
Qed.

Lemma coll_coeff_R (c : list R) i t :
  valid_term (length c) t ->
  coll_coeff c i t = Ok (term_value (assign c 1) t / coll_d c i / (1 + INR (coll_order t))).
Proof.
  intros Hv. unfold coll_coeff. rewrite lit1.
  replace (sZ (Z.of_nat (coll_order t))) with (INR (coll_order t)) by (unfold sZ; simpl; rewrite INR_IZR_INZ; reflexivity).
  cbn [sdiv sadd RScalar].
  replace (term_value (assign c 1) t / coll_d c i / (1 + INR (coll_order t)))
    with (1 / coll_d c i / (1 + INR (coll_order t)) * term_value (assign c 1) t) by (unfold Rdiv; ring).
  generalize (1 / coll_d c i / (1 + INR (coll_order t))) as a.
  induction t as [|z t IH]; intros a; [simpl; f_equal; ring|].
  cbn [foldR]. unfold assign in * . cbn [term_value fold_right].
  fold (term_value (fun z : Z => if (z =? -1)%Z then 1 else - ventry c (Z.to_nat z)) t) in * .
  assert (Hv' : valid_term (length c) t) by (intros z' Hz'; apply Hv; right; exact Hz').
  destruct (Hv z (or_introl eq_refl)) as [->|(j & Hj & ->)].
  - cbn [Z.eqb Pos.eqb rbind]. rewrite IH by exact Hv'. f_equal. ring.
  - replace (Z.of_nat j =? -1)%Z with false by (symmetry; apply Z.eqb_neq; lia).
    replace (Z.of_nat j <? 0)%Z with false by (symmetry; apply Z.ltb_ge; lia).
    rewrite Nat2Z.id. unfold vget. rewrite (nth_error_nth' c 0) by exact Hj. cbn [rbind].
    rewrite IH by exact Hv'. f_equal. unfold ventry. simpl. ring.
Qed.

(** ** Matrix accumulation *)
Lemma list_set_nth {A} (l : list A) i x k d :
  (i < length l)%nat -> nth k (list_set l i x) d = if (k =? i)%nat then x else nth k l d.
Proof.
  revert i k. induction l as [|a l IH]; intros i k Hi; [simpl in Hi; lia|].
  destruct i as [|i]; destruct k as [|k]; simpl; try reflexivity. apply IH. simpl in Hi; lia.
Qed.
Lemma list_set_length {A} (l : list A) i x : length (list_set l i x) = length l.
Proof. revert i. induction l as [|a l IH]; intros [|i]; simpl; auto. Qed.

Lemma mset_mtab {T} n m (f : nat -> nat -> T) i j x :
  (i < n)%nat -> (j < m)%nat ->
  mset (mtab n m f) i j x = mtab n m (fun i' j' => if (i' =? i)%nat && (j' =? j)%nat then x else f i' j').
Proof.
  intros Hi Hj. unfold mset. rewrite mtab_col by exact Hj. unfold mtab. cbn [nrows mcols]. f_equal.
  apply (nth_ext _ _ [] []); [rewrite list_set_length, !map_length; reflexivity|].
  intros k Hk. rewrite list_set_length, map_length, seq_length in Hk.
  rewrite list_set_nth by (rewrite map_length, seq_length; exact Hj).
  change (map (fun j0 : nat => map (fun i0 : nat => f i0 j0) (seq 0 n)) (seq 0 m)) with (vtab m (fun j0 => vtab n (fun i0 => f i0 j0))).
  change (map (fun j0 : nat => map (fun i0 : nat => if (i0 =? i)%nat && (j0 =? j)%nat then x else f i0 j0) (seq 0 n)) (seq 0 m))
    with (vtab m (fun j0 => vtab n (fun i0 => if (i0 =? i)%nat && (j0 =? j)%nat then x else f i0 j0))).
  rewrite !vtab_nth by exact Hk.
  destruct (Nat.eqb_spec k j) as [->|Hkj].
  - apply (list_ext_nth x); [rewrite list_set_length, !vtab_length; reflexivity|].
    intros r Hr. rewrite list_set_length, vtab_length in Hr.
    rewrite list_set_nth by (rewrite vtab_length; exact Hi). rewrite !vtab_nth by exact Hr.
    rewrite andb_true_r. destruct (r =? i)%nat; reflexivity.
  - apply vtab_ext. intros r Hr. rewrite andb_false_r. reflexivity.
Qed.

Definition lsum (l : list R) : R := fold_right Rplus 0 l.
Lemma lsum_app a b : lsum (a ++ b) = lsum a + lsum b.
Proof. unfold lsum. induction a as [|x a IH]; simpl; [ring|]. rewrite IH; ring. Qed.

Section Main.
  Context `{E : Env R}.
  Variable c : list R.
  Let n := length c.

  Definition tcoeff (i : nat) (t : list Z) : R := term_value (assign c 1) t / coll_d c i / (1 + INR (coll_order t)).
  Definition tidx (t : list Z) : nat := (n - coll_order t - 1)%nat.
  Definition good_term (t : list Z) : Prop := valid_term n t /\ (coll_order t < n)%nat.

  Lemma coll_add_mtab f i t :
    (i < n)%nat -> good_term t ->
    coll_add c i t (mtab n n f) =
    Ok (mtab n n (fun i' j' => f i' j' + if (i' =? i)%nat && (j' =? tidx t)%nat then tcoeff i t else 0)).
  Proof.
    intros Hi [Hv Ho]. unfold coll_add. rewrite coll_coeff_R by exact Hv. cbn [rbind]. fold n.
    replace (Z.of_nat n - Z.of_nat (coll_order t) - 1)%Z with (Z.of_nat (tidx t)) by (unfold tidx; lia).
    assert (Hx : (tidx t < n)%nat) by (unfold tidx; lia).
    replace (0 <=? Z.of_nat (tidx t))%Z with true by (symmetry; apply Z.leb_le; lia).
    replace (Z.of_nat (tidx t) <? Z.of_nat n)%Z with true by (symmetry; apply Z.ltb_lt; lia).
    replace (Z.of_nat (tidx t) <? 0)%Z with false by (symmetry; apply Z.ltb_ge; lia).
    cbn [andb negb]. rewrite andb_false_r. rewrite Nat2Z.id, mget_mtab by assumption. cbn [rbind].
    rewrite mset_mtab by assumption. f_equal. apply mtab_ext. intros i' j' Hi' Hj'.
    destruct (i' =? i)%nat eqn:E1; destruct (j' =? tidx t)%nat eqn:E2; cbn [andb]; try ring.
    apply Nat.eqb_eq in E1, E2. subst. reflexivity.
  Qed.

  Definition row_sum (i : nat) (ts : list (list Z)) (j : nat) : R :=
    lsum (map (fun t => if (j =? tidx t)%nat then tcoeff i t else 0) ts).

  Lemma coll_row i ts f :
    (i < n)%nat -> Forall good_term ts ->
    foldR (fun cf b => coll_add c i cf b) ts (mtab n n f) =
    Ok (mtab n n (fun i' j' => f i' j' + if (i' =? i)%nat then row_sum i ts j' else 0)).
  Proof.
    intros Hi. revert f. induction ts as [|t ts IH]; intros f Hts; cbn [foldR].
    - f_equal. apply mtab_ext. intros i' j' _ _. unfold row_sum; simpl. destruct (_ =? _)%nat; ring.
    - inversion_clear Hts. rewrite coll_add_mtab by assumption. cbn [rbind]. rewrite IH by assumption.
      f_equal. apply mtab_ext. intros i' j' _ _. unfold row_sum; simpl.
      destruct (i' =? i)%nat; cbn [andb]; ring.
  Qed.

  Definition good_poly (i : nat) : Prop := Forall good_term (coll_poly n i).

  Lemma coll_rows k f :
    (k <= n)%nat -> (forall i, (i < n)%nat -> good_poly i) ->
    foldR (fun i b_interp => foldR (fun cf b => coll_add c i cf b) (coll_poly n i) b_interp) (seq 0 k) (mtab n n f) =
    Ok (mtab n n (fun i j => f i j + if (i <? k)%nat then row_sum i (coll_poly n i) j else 0)).
  Proof.
    intros Hk Hg. induction k as [|k IH].
    - simpl. f_equal. apply mtab_ext. intros; ring.
    - rewrite seq_S, foldR_app, IH by lia. cbn [rbind foldR Nat.add].
      rewrite coll_row by (try apply Hg; lia). cbn [rbind]. f_equal. apply mtab_ext. intros i j _ _.
      destruct (Nat.eqb_spec i k) as [->|Hne].
      + rewrite Nat.ltb_irrefl. replace (k <? S k)%nat with true by (symmetry; apply Nat.ltb_lt; lia). ring.
      + destruct (Nat.ltb_spec i (S k)), (Nat.ltb_spec i k); try ring; lia.
  Qed.

  Lemma good_poly_2 i : (i < n)%nat -> good_poly i.
  Proof.
    intros Hi. unfold good_poly. destruct (coll_poly_inv i n) as [[_ ->]|(H1 & H2 & H3 & H4)]; [constructor|].
    apply Forall_forall. intros t Ht. destruct (H3 t Ht) as [L Hz]. split; [exact Hz|].
    rewrite others_lt in L by exact Hi. unfold coll_order. pose proof (count_occ_bound Z.eq_dec (-1)%Z t). lia.
  Qed.

  Lemma coll_matrix :
    collocation_interpolate_coeffs c = Ok (mtab n n (fun i j => row_sum i (coll_poly n i) j)).
  Proof.
    unfold collocation_interpolate_coeffs. cbv zeta. fold n. unfold mzeros.
    rewrite coll_rows; [|lia|exact good_poly_2]. f_equal. apply mtab_ext. intros i j Hi Hj.
    apply Nat.ltb_lt in Hi. rewrite Hi. simpl. unfold sZ. simpl. ring.
  Qed.

  Lemma spowers_R theta tt m k : (k < m)%nat -> nth k (spowers theta tt m) 0 = tt * theta ^ k.
  Proof.
    revert tt k. induction m as [|m IH]; intros tt k Hk; [lia|]. destruct k as [|k]; simpl; [ring|].
    rewrite IH by lia. simpl. ring.
  Qed.
  Lemma spowers_length theta tt m : length (spowers theta tt m) = m.
  Proof. revert tt; induction m; simpl; auto. Qed.

  Lemma ts_entry theta k : (k < n)%nat -> ventry (rev (spowers theta theta n)) k = theta ^ (n - k).
  Proof.
    intros Hk. unfold ventry. rewrite rev_nth by (rewrite spowers_length; exact Hk).
    rewrite spowers_length, spowers_R by lia. replace (n - k)%nat with (S (n - S k)) by lia. reflexivity.
  Qed.

  Lemma row_poly i ts theta :
    Forall good_term ts ->
    Rsum n (fun k => row_sum i ts k * theta ^ (n - k)) = lsum (map (fun t => tcoeff i t * theta ^ S (coll_order t)) ts).
  Proof.
    unfold row_sum. induction ts as [|t ts IH]; intros Hts; cbn [map].
    - apply Rsum_0. intros; unfold lsum; simpl; ring.
    - inversion_clear Hts. change (lsum (?a :: ?l)) with (a + lsum l). rewrite <- IH by assumption.
      rewrite (Rsum_ext n _ (fun k => (if (k =? tidx t)%nat then tcoeff i t else 0) * theta ^ (n - k)
         + lsum (map (fun t0 => if (k =? tidx t0)%nat then tcoeff i t0 else 0) ts) * theta ^ (n - k)))
        by (intros; unfold lsum; simpl; ring).
      rewrite Rsum_plus. f_equal. destruct H as [Hv Ho].
      rewrite (Rsum_single n (tidx t)).
      + rewrite Nat.eqb_refl. f_equal. f_equal. unfold tidx. lia.
      + unfold tidx; lia.
      + intros k _ Hk. apply Nat.eqb_neq in Hk. rewrite Hk. ring.
  Qed.

  Lemma S_INR' m : INR (S m) = 1 + INR m.
  Proof. rewrite S_INR. ring. Qed.

  (** integral of one monomial *)
  Lemma is_RInt_monomial K m theta :
    is_RInt (fun x => K * x ^ m) 0 theta (K / (1 + INR m) * theta ^ S m).
  Proof.
    assert (Hp : 1 + INR m <> 0) by (pose proof (pos_INR m); lra).
    pose proof (is_RInt_derive (fun x => K / (1 + INR m) * x ^ S m) (fun x => K * x ^ m) 0 theta) as H.
    replace (K / (1 + INR m) * theta ^ S m) with
      (minus (K / (1 + INR m) * theta ^ S m) (K / (1 + INR m) * 0 ^ S m)).
    2:{ unfold minus, plus, opp; simpl. ring. }
    apply H.
    - intros x _. auto_derive; [trivial|].
      match goal with |- context [match m with O => 1 | S _ => ?b end] =>
        replace (match m with O => 1 | S _ => b end) with (1 + INR m)
          by (rewrite <- (S_INR' m); reflexivity) end.
      simpl (Init.Nat.pred (S m)). field. lra.
    - intros x _. apply (ex_derive_continuous (V := R_NormedModule)). auto_derive. trivial.
  Qed.

  Lemma is_RInt_terms i ts theta :
    is_RInt (fun x => sum_value (assign c x) ts / coll_d c i) 0 theta
            (lsum (map (fun t => tcoeff i t * theta ^ S (coll_order t)) ts)).
  Proof.
    induction ts as [|t ts IH].
    - apply (is_RInt_ext (fun _ => 0)).
      + intros x _. unfold sum_value; simpl. unfold Rdiv; ring.
      + pose proof (is_RInt_const (V := R_NormedModule) 0 theta 0) as H.
        refine (eq_ind _ (fun z => is_RInt (fun _ : R => 0) 0 theta z) H _ _).
        unfold lsum, scal; simpl; unfold mult; simpl; ring.
    - apply (is_RInt_ext (fun x => plus (term_value (assign c 1) t / coll_d c i * x ^ coll_order t)
                                        (sum_value (assign c x) ts / coll_d c i))).
      + intros x _. change (sum_value (assign c x) (t :: ts)) with (term_value (assign c x) t + sum_value (assign c x) ts).
        rewrite (term_split c x t). unfold plus; simpl. unfold Rdiv. ring.
      + change (lsum (map ?f (t :: ts))) with (plus (f t) (lsum (map f ts))).
        apply (is_RInt_plus (V := R_NormedModule)); [|exact IH]. apply is_RInt_monomial.
  Qed.

  Lemma Rprod_div m f g : Rprod m (fun k => f k / g k) = Rprod m f / Rprod m g.
  Proof.
    induction m; simpl; [field|]. rewrite IHm. unfold Rdiv. rewrite Rinv_mult. ring.
  Qed.
  Lemma Rprod_ext m f g : (forall k, (k < m)%nat -> f k = g k) -> Rprod m f = Rprod m g.
  Proof. induction m; simpl; intros Hx; [reflexivity|]. rewrite IHm, Hx; auto. Qed.

  Lemma lagrange_value i x : (2 <= n)%nat -> (i < n)%nat ->
    sum_value (assign c x) (coll_poly n i) / coll_d c i = lagrange c i x.
  Proof.
    intros H2 Hi. destruct (coll_poly_inv i n) as [[Ho _]|(_ & _ & _ & Hs)].
    { rewrite others_lt in Ho by exact Hi. lia. }
    rewrite Hs, coll_d_R. unfold lagrange. fold n. rewrite <- Rprod_div. apply Rprod_ext. intros k Hk.
    destruct (k =? i)%nat; [field|]. unfold assign. cbn [Z.eqb Pos.eqb].
    replace (Z.of_nat k =? -1)%Z with false by (symmetry; apply Z.eqb_neq; lia). rewrite Nat2Z.id. f_equal; ring.
  Qed.

  Context {LA : LinAlg R} {X : ExactProducts LA}.

  Lemma project_value theta : (1 <= n)%nat ->
    exists w, project_b theta n (mtab n n (fun i j => row_sum i (coll_poly n i) j)) = Ok w /\ length w = n /\
    forall i, (i < n)%nat -> ventry w i = lsum (map (fun t => tcoeff i t * theta ^ S (coll_order t)) (coll_poly n i)).
  Proof.
    intros Hn. unfold project_b, msize. rewrite mtab_nrows, mtab_ncols.
    replace (n * n =? 0)%nat with false by (symmetry; apply Nat.eqb_neq; nia). rewrite andb_false_r.
    unfold mv. rewrite mtab_ncols, rev_length, spowers_length, Nat.eqb_refl, mtab_nrows.
    eexists. split; [reflexivity|]. split; [apply vtab_length|].
    intros i Hi. unfold ventry at 1. rewrite vtab_nth by exact Hi.
    rewrite exact_mv by (rewrite ?mtab_nrows, ?mtab_ncols, ?rev_length, ?spowers_length; auto).
    rewrite mtab_ncols. rewrite <- row_poly by (apply good_poly_2; exact Hi).
    apply Rsum_ext. intros k Hk. rewrite mtab_entry by assumption. rewrite ts_entry by exact Hk. reflexivity.
  Qed.

  Lemma collocation_integrates theta : (2 <= n)%nat ->
    exists B w, collocation_interpolate_coeffs c = Ok B /\ project_b theta n B = Ok w /\ length w = n /\
    forall i, (i < n)%nat -> is_RInt (lagrange c i) 0 theta (ventry w i).
  Proof.
    intros H2. destruct (project_value theta ltac:(lia)) as (w & Hw & L & Hi).
    exists (mtab n n (fun i j => row_sum i (coll_poly n i) j)), w.
    split; [exact coll_matrix|]. split; [exact Hw|]. split; [exact L|].
    intros i Hlt. rewrite Hi by exact Hlt.
    apply (is_RInt_ext (fun x => sum_value (assign c x) (coll_poly n i) / coll_d c i)).
    - intros x _. apply lagrange_value; assumption.
    - apply is_RInt_terms.
  Qed.

  Lemma collocation_single theta : n = 1%nat ->
    exists B, collocation_interpolate_coeffs c = Ok B /\ project_b theta n B = Ok [0].
  Proof.
    intros H1. exists (mtab n n (fun i j => row_sum i (coll_poly n i) j)). split; [exact coll_matrix|].
    destruct (project_value theta ltac:(lia)) as (w & Hw & L & Hi). rewrite Hw. f_equal.
    rewrite H1 in L. destruct w as [|a [|b w]]; try discriminate. f_equal.
    specialize (Hi O ltac:(lia)). unfold ventry in Hi; simpl in Hi. rewrite Hi. rewrite H1. reflexivity.
  Qed.
End Main.
