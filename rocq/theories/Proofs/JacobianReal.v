(** Central differences in exact arithmetic. *)
From Coq Require Import Reals Lra.
From Coquelicot Require Import Coquelicot.
From Verif Require Import Model.Base Model.Scalar Model.LinAlg Spec.Sums Spec.NewtonSpec Spec.JacobianSpec Proofs.SumsProofs Proofs.RVec.
Local Open Scope R_scope.

Lemma ventry_set y j a k : (j < length y)%nat -> ventry (list_set y j a) k = if Nat.eq_dec k j then a else ventry y k.
Proof.
  intros Hj. unfold ventry. rewrite vset_nth. apply Nat.ltb_lt in Hj. rewrite Hj, andb_true_r.
  destruct (Nat.eq_dec k j) as [->|H]; [rewrite Nat.eqb_refl; reflexivity|]. apply Nat.eqb_neq in H. rewrite H. reflexivity.
Qed.
Lemma ventry_shift y j h k : (j < length y)%nat -> ventry (list_set y j (ventry y j + h)) k = ventry y k + h * delta k j.
Proof. intros Hj. rewrite ventry_set by exact Hj. unfold delta. destruct (Nat.eq_dec k j) as [->|H]; ring. Qed.
Lemma delta_sum_r n j f : (j < n)%nat -> Rsum n (fun k => f k * delta k j) = f j.
Proof.
  intros Hj. rewrite (Rsum_single n j); [|exact Hj|].
  - unfold delta. destruct (Nat.eq_dec j j); [ring|congruence].
  - intros k Hk Hne. unfold delta. destruct (Nat.eq_dec k j); [congruence|ring].
Qed.

Lemma central_entry f y h i j : (i < length y)%nat -> (j < length y)%nat ->
  mentry (central_differences f y h) i j = (along f y i j (ventry y j + h) - along f y i j (ventry y j - h)) / (2 * h).
Proof. intros Hi Hj. unfold central_differences. rewrite mentry_vt by assumption. reflexivity. Qed.

Lemma quadratic_exact c l q y h i j : h <> 0 -> (i < length y)%nat -> (j < length y)%nat ->
  mentry (central_differences (quadratic_map (length y) c l q) y h) i j = quadratic_partial (length y) l q y i j.
Proof.
  intros Hh Hi Hj. rewrite central_entry by assumption. unfold along, quadratic_map, quadratic_partial. set (n := length y) in * .
  rewrite !ventry_vt by exact Hi. replace (ventry y j - h) with (ventry y j + - h) by ring.
  assert (Hlin : forall e, Rsum n (fun k => l i k * ventry (list_set y j (ventry y j + e)) k) = Rsum n (fun k => l i k * ventry y k) + e * l i j).
  { intros e. rewrite <- (delta_sum_r n j (fun k => l i k) Hj), <- Rsum_scal, <- Rsum_plus. apply Rsum_ext. intros k Hk.
    rewrite ventry_shift by exact Hj. ring. }
  assert (Hq : forall e, Rsum n (fun k => Rsum n (fun m => q i k m * (ventry (list_set y j (ventry y j + e)) k * ventry (list_set y j (ventry y j + e)) m))) =
     Rsum n (fun k => Rsum n (fun m => q i k m * (ventry y k * ventry y m))) + e * Rsum n (fun m => (q i j m + q i m j) * ventry y m) + e * e * q i j j).
  { intros e.
    rewrite (Rsum_ext n _ (fun k => Rsum n (fun m => q i k m * (ventry y k * ventry y m)) + e * (q i k j * ventry y k) +
                            Rsum n (fun m => e * q i k m * ventry y m) * delta k j + e * e * q i k j * delta k j)).
    2:{ intros k Hk.
        rewrite (Rsum_ext n _ (fun m => q i k m * (ventry y k * ventry y m) + e * (q i k m * ventry y k) * delta m j + (e * q i k m * ventry y m) * delta k j + e * e * delta k j * q i k m * delta m j)).
        2:{ intros m Hm. rewrite !ventry_shift by exact Hj. ring. }
        rewrite !Rsum_plus, Rsum_scal_r. rewrite (delta_sum_r n j (fun m => e * (q i k m * ventry y k)) Hj).
        rewrite (delta_sum_r n j (fun m => e * e * delta k j * q i k m) Hj). ring. }
    rewrite !Rsum_plus. rewrite (delta_sum_r n j (fun k => Rsum n (fun m => e * q i k m * ventry y m)) Hj).
    rewrite (delta_sum_r n j (fun k => e * e * q i k j) Hj).
    rewrite (Rsum_scal n e (fun k => q i k j * ventry y k)).
    rewrite (Rsum_ext n (fun m => (q i j m + q i m j) * ventry y m) (fun m => q i j m * ventry y m + q i m j * ventry y m)) by (intros; ring).
    rewrite Rsum_plus, (Rsum_ext n (fun m => e * q i j m * ventry y m) (fun m => e * (q i j m * ventry y m))) by (intros; ring).
    rewrite Rsum_scal. ring. }
  rewrite !Hlin, !Hq. field. exact Hh.
Qed.

Lemma taylor2 g a h : 0 < h -> (forall t k, (k <= 3)%nat -> ex_derive_n g k t) -> exists z, a < z < a + h /\
  g (a + h) = g a + h * Derive g a + h * h / 2 * Derive_n g 2 a + h * h * h / 6 * Derive_n g 3 z.
Proof.
  intros Hh Hd. destruct (Taylor_Lagrange g 2 a (a + h)) as (z & Hz & Ez); [lra|intros t _ k Hk; apply Hd; exact Hk|].
  exists z. split; [exact Hz|]. rewrite Ez. cbn [sum_f_R0 pow Derive_n].
  replace (a + h - a) with h by ring. change (INR (fact 0)) with 1. change (INR (fact 1)) with 1. replace (INR (fact 2)) with 2 by (simpl; ring). replace (INR (fact 3)) with 6 by (simpl; ring). unfold Derive_n.
  change (fun x : R => g x) with g. field.
Qed.
Lemma taylor_back g a h : 0 < h -> (forall t k, (k <= 3)%nat -> ex_derive_n g k t) -> exists z, a - h < z < a /\
  g (a - h) = g a - h * Derive g a + h * h / 2 * Derive_n g 2 a - h * h * h / 6 * Derive_n g 3 z.
Proof.
  intros Hh Hd.
  assert (Hk : forall n t, (n <= 3)%nat -> Derive_n (fun u => g (- u)) n t = (-1) ^ n * Derive_n g n (- t)).
  { intros n t Hn. apply Derive_n_comp_opp. apply filter_forall. intros u k Hkn. apply Hd. lia. }
  destruct (taylor2 (fun u => g (- u)) (- a) h Hh) as (z & Hz & Ez).
  { intros t k Hk3. apply ex_derive_n_comp_opp. apply filter_forall. intros u k' Hk'. apply Hd. lia. }
  exists (- z). split; [lra|]. replace (- (- a + h)) with (a - h) in Ez by ring. rewrite Ez.
  change (Derive (fun u => g (- u)) (- a)) with (Derive_n (fun u => g (- u)) 1 (- a)).
  rewrite !Hk by lia. rewrite !Ropp_involutive. change (Derive_n g 1 a) with (Derive g a). ring.
Qed.
Lemma central_error g a h M : h <> 0 -> (forall t k, (k <= 3)%nat -> ex_derive_n g k t) ->
  (forall t, a - Rabs h <= t <= a + Rabs h -> Rabs (Derive_n g 3 t) <= M) ->
  Rabs ((g (a + h) - g (a - h)) / (2 * h) - Derive g a) <= h * h * M / 6.
Proof.
  intros Hh Hd HM.
  assert (Hpos : forall h, 0 < h -> (forall t, a - h <= t <= a + h -> Rabs (Derive_n g 3 t) <= M) -> Rabs ((g (a + h) - g (a - h)) / (2 * h) - Derive g a) <= h * h * M / 6).
  { clear h Hh HM. intros h Hh HM. destruct (taylor2 g a h Hh Hd) as (z1 & Hz1 & E1). destruct (taylor_back g a h Hh Hd) as (z2 & Hz2 & E2).
    rewrite E1, E2.
    match goal with |- Rabs ?e <= _ => replace e with (h * h / 12 * (Derive_n g 3 z1 + Derive_n g 3 z2)) by (field; lra) end.
    rewrite Rabs_mult, (Rabs_pos_eq (h * h / 12)) by nra.
    pose proof (HM z1 ltac:(lra)) as B1. pose proof (HM z2 ltac:(lra)) as B2. pose proof (Rabs_triang (Derive_n g 3 z1) (Derive_n g 3 z2)) as B3.
    replace (h * h * M / 6) with (h * h / 12 * (M + M)) by field. apply Rmult_le_compat_l; [nra|lra]. }
  destruct (Rtotal_order h 0) as [Hn|[H0|Hp]]; [|contradiction|].
  - specialize (Hpos (- h) ltac:(lra)). rewrite (Rabs_left h Hn) in HM. specialize (Hpos HM).
    replace ((g (a + h) - g (a - h)) / (2 * h)) with ((g (a + - h) - g (a - - h)) / (2 * - h)).
    { replace (h * h * M / 6) with (- h * - h * M / 6) by field. exact Hpos. }
    replace (a + - h) with (a - h) by ring. replace (a - - h) with (a + h) by ring. field. lra.
  - rewrite (Rabs_right h) in HM by lra. apply Hpos; assumption.
Qed.
Lemma second_order f y h i j M : h <> 0 -> (i < length y)%nat -> (j < length y)%nat ->
  (forall t k, (k <= 3)%nat -> ex_derive_n (along f y i j) k t) ->
  (forall t, ventry y j - Rabs h <= t <= ventry y j + Rabs h -> Rabs (Derive_n (along f y i j) 3 t) <= M) ->
  Rabs (mentry (central_differences f y h) i j - Derive (along f y i j) (ventry y j)) <= h * h * M / 6.
Proof. intros Hh Hi Hj Hd HM. rewrite central_entry by assumption. apply central_error; assumption. Qed.
