(** Tableaux with a common denominator D: order conditions checked in Z[sqrt d] (no fractions). *)
From Coq Require Import QArith Qreals Reals Lra.
From Verif Require Import Model.Base Spec.Sums Spec.Trees Proofs.SumsProofs Proofs.TreesProofs Proofs.QuadField.
Local Open Scope R_scope.

Definition qs0 : qs := QS 0 0.
Definition qs1 : qs := QS 1 0.
Record zs := ZS { z0 : Z; z1 : Z }.
Definition zs0 := ZS 0 0.
Definition zs1 := ZS 1 0.
Definition zadd (x y : zs) := ZS (z0 x + z0 y) (z1 x + z1 y).
Definition zmul (d : Z) (x y : zs) := ZS (z0 x * z0 y + d * (z1 x * z1 y)) (z0 x * z1 y + z1 x * z0 y).
Definition zscal (k : Z) (x : zs) := ZS (k * z0 x) (k * z1 x).
Definition znorm (d : Z) (x : zs) : Z := (z0 x * z0 x - d * (z1 x * z1 x))%Z.

Definition common_den (l : list qs) : Z :=
  fold_right (fun x D => Z.lcm (Zpos (Qden (q0 x))) (Z.lcm (Zpos (Qden (q1 x))) D)) 1%Z l.
Definition scale (D : Z) (x : qs) : zs :=
  ZS (Qnum (q0 x) * (D / Zpos (Qden (q0 x)))) (Qnum (q1 x) * (D / Zpos (Qden (q1 x)))).
Definition scale_ok (D : Z) (x : qs) : bool :=
  (D mod Zpos (Qden (q0 x)) =? 0)%Z && (D mod Zpos (Qden (q1 x)) =? 0)%Z.

Definition zsum (l : list zs) : zs := fold_right zadd zs0 l.
Definition zzip (f : zs -> zs -> zs) (x y : list zs) : list zs := map (fun p => f (fst p) (snd p)) (combine x y).
Definition zdot (d : Z) (x y : list zs) : zs := zsum (zzip (zmul d) x y).
Fixpoint zpow (d : Z) (x : zs) (n : nat) : zs := match n with O => zs1 | S m => zmul d x (zpow d x m) end.

Fixpoint zphi (d : Z) (s : nat) (rows : list (list zs)) (t : tree) : list zs :=
  match t with
  | Node ch => fold_right (fun u r => zzip (zmul d) (let p := zphi d s rows u in map (fun row => zdot d row p) rows) r)
                          (repeat zs1 s) ch
  end.

(** sizes as integers (unary numbers would be slow) *)
Fixpoint zvertices (t : tree) : Z :=
  match t with Node ch => (1 + fold_right (fun u n => (zvertices u + n)) 0 ch)%Z end.
Fixpoint zdensity (t : tree) : Z :=
  match t with Node ch => (zvertices t * fold_right (fun u n => zdensity u * n) 1 ch)%Z end.
Lemma zvertices_ok t : zvertices t = Z.of_nat (vertices t).
Proof.
  induction t as [ch IH] using tree_ind'. cbn [zvertices vertices]. rewrite Nat2Z.inj_succ.
  replace (fold_right (fun u n => (zvertices u + n)%Z) 0%Z ch)
    with (Z.of_nat (fold_right (fun u n => (vertices u + n)%nat) O ch)); [lia|].
  induction IH as [|u ch Hu _ IH2]; simpl; [reflexivity|]. rewrite Nat2Z.inj_add, IH2, Hu. reflexivity.
Qed.
Lemma zdensity_ok t : zdensity t = Z.of_nat (density t).
Proof.
  induction t as [ch IH] using tree_ind'. cbn [zdensity density]. rewrite Nat2Z.inj_mul, zvertices_ok. f_equal.
  induction IH as [|u ch Hu _ IH2]; [reflexivity|]. cbn [fold_right]. rewrite Nat2Z.inj_mul, IH2, Hu. reflexivity.
Qed.
Lemma density_pos t : (0 < density t)%nat.
Proof.
  induction t as [ch IH] using tree_ind'. cbn [density]. apply Nat.mul_pos_pos; [simpl; lia|].
  induction IH as [|u ch Hu _ IH2]; cbn [fold_right]; [lia|]. apply Nat.mul_pos_pos; assumption.
Qed.

Section Z.
  Variable d : Z.
  Hypothesis d_nonneg : (0 <= d)%Z.
  Definition zR (x : zs) : R := IZR (z0 x) + IZR (z1 x) * sqrt (IZR d).

  Lemma zR_0 : zR zs0 = 0.
  Proof. unfold zR; simpl; ring. Qed.
  Lemma zR_1 : zR zs1 = 1.
  Proof. unfold zR; simpl; ring. Qed.
  Lemma zR_add x y : zR (zadd x y) = zR x + zR y.
  Proof. unfold zR, zadd; cbn [z0 z1]. rewrite !plus_IZR. ring. Qed.
  Lemma zR_scal k x : zR (zscal k x) = IZR k * zR x.
  Proof. unfold zR, zscal; cbn [z0 z1]. rewrite !mult_IZR. ring. Qed.
  Lemma zR_mul x y : zR (zmul d x y) = zR x * zR y.
  Proof.
    unfold zR, zmul; cbn [z0 z1]. rewrite !plus_IZR, !mult_IZR.
    transitivity (IZR (z0 x) * IZR (z0 y) + sqrt (IZR d) * sqrt (IZR d) * (IZR (z1 x) * IZR (z1 y)) +
      (IZR (z0 x) * IZR (z1 y) + IZR (z1 x) * IZR (z0 y)) * sqrt (IZR d)); [rewrite sqrt_d by exact d_nonneg; ring|ring].
  Qed.
  Lemma zR_pow x n : zR (zpow d x n) = zR x ^ n.
  Proof. induction n as [|n IH]; simpl; [apply zR_1|]. rewrite zR_mul, IH. reflexivity. Qed.
  Lemma zR_norm_neq x : znorm d x <> 0%Z -> zR x <> 0.
  Proof.
    intros Hn Hx. apply Hn. apply eq_IZR. unfold znorm. rewrite minus_IZR, !mult_IZR.
    transitivity (zR x * (IZR (z0 x) - IZR (z1 x) * sqrt (IZR d))); [|rewrite Hx; ring].
    unfold zR. transitivity (IZR (z0 x) * IZR (z0 x) - sqrt (IZR d) * sqrt (IZR d) * (IZR (z1 x) * IZR (z1 x))); [|ring].
    rewrite sqrt_d by exact d_nonneg. ring.
  Qed.

  Lemma scale_num D q : (D mod Zpos (Qden q) =? 0)%Z = true -> IZR (Qnum q * (D / Zpos (Qden q))) = IZR D * Q2R q.
  Proof.
    intros H. apply Z.eqb_eq in H. unfold Q2R. rewrite mult_IZR.
    assert (E : D = (Zpos (Qden q) * (D / Zpos (Qden q)))%Z) by (pose proof (Z_div_mod_eq_full D (Zpos (Qden q))); lia).
    rewrite E at 2. rewrite mult_IZR. field. apply IZR_neq. lia.
  Qed.
  Lemma scale_R D x : scale_ok D x = true -> zR (scale D x) = IZR D * toR d x.
  Proof.
    unfold scale_ok. rewrite andb_true_iff. intros [H1 H2]. unfold zR, scale, toR. cbn [z0 z1].
    rewrite !scale_num by assumption. ring.
  Qed.

  Lemma zzip_length f x y : length (zzip f x y) = Nat.min (length x) (length y).
  Proof. unfold zzip. rewrite map_length, combine_length. reflexivity. Qed.
  Lemma zzip_nth f x y i : (i < length x)%nat -> length x = length y -> nth i (zzip f x y) zs0 = f (nth i x zs0) (nth i y zs0).
  Proof.
    revert y i. induction x as [|a x IH]; intros [|b y] i Hi Hl; simpl in *; try lia; try discriminate.
    destruct i; [reflexivity|]. apply (IH y i); lia.
  Qed.
  Lemma zdot_R n x y : length x = n -> length y = n ->
    zR (zdot d x y) = Rsum n (fun j => zR (nth j x zs0) * zR (nth j y zs0)).
  Proof.
    unfold zdot, zzip. revert x y. induction n as [|n IH]; intros [|a x] [|b y] Hx Hy; try discriminate.
    - simpl. apply zR_0.
    - rewrite Rsum_shift. simpl. rewrite zR_add, zR_mul. f_equal. apply IH; auto.
  Qed.

  Variables (s : nat) (rows : list (list zs)) (D : Z).
  Hypothesis Hrows : length rows = s.
  Hypothesis Hrow : forall r, In r rows -> length r = s.
  Variable a : nat -> nat -> R.
  Hypothesis Ha : forall i j, (i < s)%nat -> (j < s)%nat -> zR (nth j (nth i rows []) zs0) = IZR D * a i j.

  Lemma zphi_R t : length (zphi d s rows t) = s /\
    forall i, (i < s)%nat -> zR (nth i (zphi d s rows t) zs0) = IZR D ^ (vertices t - 1) * stage_weight s a t i.
  Proof.
    induction t as [ch IH] using tree_ind'. cbn [zphi stage_weight vertices].
    replace (S (fold_right (fun u n => (vertices u + n)%nat) O ch) - 1)%nat
      with (fold_right (fun u n => (vertices u + n)%nat) O ch) by lia.
    induction ch as [|u ch IHch]; cbn [fold_right].
    - split; [apply repeat_length|]. intros i Hi. rewrite (nth_indep _ zs0 zs1) by (rewrite repeat_length; exact Hi).
      rewrite nth_repeat, zR_1. simpl. ring.
    - inversion_clear IH as [|? ? [Lu Hu] Hch]. destruct (IHch Hch) as [Lr Hr]. clear IHch Hch. cbv zeta. split.
      + rewrite zzip_length, map_length, Hrows, Lr. apply Nat.min_id.
      + intros i Hi. rewrite zzip_nth by (rewrite ?map_length, ?Hrows, ?Lr; auto).
        rewrite zR_mul. rewrite Hr by exact Hi.
        rewrite (nth_indep (map _ _) zs0 (zdot d [] (zphi d s rows u))) by (rewrite map_length, Hrows; exact Hi).
        rewrite (map_nth (fun row => zdot d row (zphi d s rows u))).
        rewrite (zdot_R s) by (try exact Lu; apply Hrow, nth_In; rewrite Hrows; exact Hi).
        rewrite pow_add.
        transitivity (IZR D * IZR D ^ (vertices u - 1) * Rsum s (fun j => a i j * stage_weight s a u j) *
                      (IZR D ^ fold_right (fun u n => (vertices u + n)%nat) O ch *
                       fold_right (fun u r => Rsum s (fun j => a i j * stage_weight s a u j) * r) 1 ch)).
        * f_equal. rewrite <- Rsum_scal. apply Rsum_ext. intros j Hj. rewrite Ha by assumption. rewrite Hu by exact Hj. ring.
        * assert (E : IZR D * IZR D ^ (vertices u - 1) = IZR D ^ vertices u)
            by (destruct u as [cu]; cbn [vertices]; replace (S _ - 1)%nat with (fold_right (fun u n => (vertices u + n)%nat) O cu) by lia; reflexivity).
          rewrite E. ring.
  Qed.

  Variable bz : list zs.
  Hypothesis Lb : length bz = s.
  Variable b : nat -> R.
  Hypothesis Hb : forall i, (i < s)%nat -> zR (nth i bz zs0) = IZR D * b i.

  Lemma zweight_R t : zR (zdot d bz (zphi d s rows t)) = IZR D ^ vertices t * weight s a b t.
  Proof.
    unfold weight. destruct (zphi_R t) as [L H]. rewrite (zdot_R s) by assumption.
    rewrite <- Rsum_scal. apply Rsum_ext. intros i Hi. rewrite Hb, H by exact Hi.
    destruct t as [ch]. cbn [vertices]. replace (S _ - 1)%nat with (fold_right (fun u n => (vertices u + n)%nat) O ch) by lia.
    simpl. ring.
  Qed.

  (** moments sum_j v_j c_j^k *)
  Variable cz : list zs.
  Hypothesis Lc : length cz = s.
  Variable c : nat -> R.
  Hypothesis Hc : forall i, (i < s)%nat -> zR (nth i cz zs0) = IZR D * c i.
  Definition zmoment (v c : list zs) (k : nat) : zs := zdot d v (map (fun x => zpow d x k) c).
  Lemma zmoment_R k : zR (zmoment bz cz k) = IZR D ^ S k * Rsum s (fun j => b j * c j ^ k).
  Proof.
    unfold zmoment. rewrite (zdot_R s) by (rewrite ?map_length; assumption). rewrite <- Rsum_scal.
    apply Rsum_ext. intros j Hj.
    rewrite (nth_indep (map _ _) zs0 (zpow d zs0 k)) by (rewrite map_length, Lc; exact Hj).
    rewrite (map_nth (fun x => zpow d x k)), zR_pow, Hb, Hc, Rpow_mult_distr by exact Hj. simpl. ring.
  Qed.
End Z.
