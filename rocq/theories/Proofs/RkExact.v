(** Consequences of being a Runge-Kutta step (explicit or implicit). *)
From Coq Require Import Reals Lra.
From Verif Require Import Model.Base Model.Scalar Model.LinAlg Spec.Sums Spec.Trees Spec.RkSpec Proofs.SumsProofs.
Local Open Scope R_scope.

Lemma ventry_vtab_ n f q : (q < n)%nat -> ventry (vtab n f) q = f q.
Proof. intros Hq. unfold ventry. apply vtab_nth, Hq. Qed.

(** linear invariants *)
Lemma rk_invariant n s a b c f t h y y' k wt : rk_step n s a b c f t h y y' k ->
  (forall t y, length y = n -> Rsum n (fun q => wt q * ventry (f t y) q) = 0) ->
  Rsum n (fun q => wt q * ventry y' q) = Rsum n (fun q => wt q * ventry y q).
Proof.
  intros (Lk & Hk & Hy) Hw. rewrite Hy.
  rewrite (Rsum_ext n _ (fun q => wt q * ventry y q + h * Rsum s (fun i => b i * (wt q * ventry (nth i k []) q)))).
  - rewrite Rsum_plus, Rsum_scal, Rsum_swap. rewrite (Rsum_0 s); [lra|]. intros i Hi. rewrite Rsum_scal.
    destruct (Hk i Hi) as [_ ->]. rewrite Hw by apply vtab_length. ring.
  - intros q Hq. rewrite ventry_vtab_ by exact Hq. rewrite Rmult_plus_distr_l. f_equal.
    rewrite <- Rmult_assoc, (Rmult_comm (wt q) h), Rmult_assoc. f_equal. rewrite <- Rsum_scal. apply Rsum_ext. intros. ring.
Qed.

(** quadrature conditions from bushy trees *)
Definition bushy (k : nat) : tree := Node (repeat (Node []) k).
Lemma bushy_vertices k : vertices (bushy k) = S k.
Proof. unfold bushy. cbn [vertices]. f_equal. induction k; [reflexivity|]. simpl in * . lia. Qed.
Lemma bushy_density k : density (bushy k) = S k.
Proof.
  pose proof (bushy_vertices k) as Hv. unfold bushy in * . cbn [density]. rewrite Hv.
  assert (fold_right (fun u n => density u * n)%nat 1%nat (repeat (Node []) k) = 1%nat) as ->; [|lia].
  clear Hv. induction k; [reflexivity|]. simpl. rewrite IHk. reflexivity.
Qed.
Lemma bushy_weight s a k i : stage_weight s a (bushy k) i = (Rsum s (fun j => a i j)) ^ k.
Proof.
  unfold bushy. cbn [stage_weight]. induction k; [reflexivity|]. cbn [repeat fold_right pow]. rewrite IHk. f_equal.
  apply Rsum_ext. intros. simpl. ring.
Qed.
Lemma quadrature s a b c p : has_order s a b p -> (forall i, (i < s)%nat -> Rsum s (fun j => a i j) = c i) ->
  forall k, (k < p)%nat -> Rsum s (fun i => b i * c i ^ k) = 1 / INR (k + 1).
Proof.
  intros Ho Hr k Hk. specialize (Ho (bushy k)). rewrite bushy_vertices in Ho. specialize (Ho ltac:(lia)).
  unfold order_condition, weight in Ho. rewrite bushy_density in Ho. rewrite Nat.add_1_r, <- Ho.
  apply Rsum_ext. intros i Hi. rewrite bushy_weight, Hr by exact Hi. reflexivity.
Qed.

Lemma sum_f_R0_Rsum f n : sum_f_R0 f n = Rsum (S n) f.
Proof. induction n; [simpl; ring|]. cbn [sum_f_R0]. rewrite IHn. reflexivity. Qed.
Lemma C_shift j k : (k <= j)%nat -> Binomial.C (S j) (S k) = C j k * (INR (S j) / INR (S k)).
Proof.
  intros Hk. unfold C. replace (S j - S k)%nat with (j - k)%nat by lia. rewrite !fact_simpl, !mult_INR.
  pose proof (INR_fact_neq_0 k). pose proof (INR_fact_neq_0 (j - k)). assert (INR (S k) <> 0) by (apply not_0_INR; lia).
  field. auto.
Qed.
(** the shifted quadrature rule is exact on monomials *)
Lemma quad_shift s b c p t h : (forall k, (k < p)%nat -> Rsum s (fun i => b i * c i ^ k) = 1 / INR (k + 1)) ->
  forall j, (j < p)%nat -> h * Rsum s (fun i => b i * (t + c i * h) ^ j) = ((t + h) ^ (j + 1) - t ^ (j + 1)) / INR (j + 1).
Proof.
  intros Hq j Hj.
  assert (Hj1 : INR (S j) <> 0) by (apply not_0_INR; lia).
  (* left: expand, swap *)
  rewrite (Rsum_ext s _ (fun i => Rsum (S j) (fun k => C j k * t ^ (j - k) * h ^ k * (b i * c i ^ k)))).
  2:{ intros i Hi. rewrite (Rplus_comm t), binomial, sum_f_R0_Rsum, <- Rsum_scal. apply Rsum_ext. intros k Hk.
      rewrite Rpow_mult_distr. rewrite pascal_step1 by lia. 
      replace (Binomial.C j (j - k)) with (C j k) by (apply pascal_step1; lia). ring. }
  rewrite Rsum_swap.
  rewrite (Rsum_ext (S j) _ (fun k => C j k * t ^ (j - k) * h ^ k * (1 / INR (k + 1)))).
  2:{ intros k Hk. rewrite Rsum_scal, Hq by lia. reflexivity. }
  (* right *)
  rewrite (Rplus_comm t h), binomial, sum_f_R0_Rsum. replace (S (j + 1)) with (S (S j)) by lia. rewrite (Rsum_shift (S j)).
  replace (C (j + 1) 0 * h ^ 0 * t ^ (j + 1 - 0)) with (t ^ (j + 1)).
  2:{ rewrite Nat.sub_0_r. unfold C. rewrite Nat.sub_0_r. change (fact 0) with 1%nat. change (INR 1) with 1. change (h ^ 0) with 1. field. apply INR_fact_neq_0. }
  replace (t ^ (j + 1) + Rsum (S j) (fun i => C (j + 1) (S i) * h ^ S i * t ^ (j + 1 - S i)) - t ^ (j + 1))
     with (Rsum (S j) (fun i => C (j + 1) (S i) * h ^ S i * t ^ (j + 1 - S i))) by ring.
  match goal with |- _ = Rsum ?n ?f / ?d => change (Rsum n f / d) with (Rsum n f * / d) end. rewrite <- Rsum_scal_r, <- Rsum_scal. apply Rsum_ext. intros k Hk.
  rewrite !Nat.add_1_r, C_shift by lia. replace (S j - S k)%nat with (j - k)%nat by lia.
  assert (INR (S k) <> 0) by (apply not_0_INR; lia). cbn [pow]. field. auto.
Qed.

Lemma rk_poly n s a b c f t h y y' k p d cf : rk_step n s a b c f t h y y' k ->
  (forall k, (k < p)%nat -> Rsum s (fun i => b i * c i ^ k) = 1 / INR (k + 1)) -> (d <= p)%nat ->
  (forall t y q, length y = n -> (q < n)%nat -> ventry (f t y) q = poly d (cf q) t) ->
  forall q, (q < n)%nat -> ventry y' q = ventry y q + poly_integral d (cf q) t (t + h).
Proof.
  intros (Lk & Hk & Hy) Hq Hd Hf q Hqn. rewrite Hy, ventry_vtab_ by exact Hqn. f_equal.
  rewrite (Rsum_ext s _ (fun i => Rsum d (fun j => cf q j * (b i * (t + c i * h) ^ j)))).
  2:{ intros i Hi. destruct (Hk i Hi) as [_ ->]. rewrite Hf by (apply vtab_length || exact Hqn). unfold poly. rewrite <- Rsum_scal. apply Rsum_ext. intros. ring. }
  rewrite Rsum_swap, <- Rsum_scal. unfold poly_integral. apply Rsum_ext. intros j Hj. rewrite Rsum_scal.
  rewrite <- (quad_shift s b c p t h Hq j) by lia. ring.
Qed.
Lemma poly_integral_chain d cf t0 t1 t2 : poly_integral d cf t0 t1 + poly_integral d cf t1 t2 = poly_integral d cf t0 t2.
Proof. unfold poly_integral. rewrite <- Rsum_plus. apply Rsum_ext. intros. unfold Rdiv. ring. Qed.

(** the linear test equation *)
Fixpoint tall (k : nat) : tree := match k with O => Node [] | S k' => Node [tall k'] end.
Lemma tall_vertices k : vertices (tall k) = S k.
Proof. induction k; [reflexivity|]. cbn [tall vertices fold_right]. rewrite IHk. lia. Qed.
Lemma tall_density k : density (tall k) = fact (S k).
Proof.
  induction k; [reflexivity|]. pose proof (tall_vertices (S k)) as Hv. cbn [tall] in * .
  cbn [density fold_right]. rewrite Hv, IHk. rewrite (fact_simpl (S k)). lia.
Qed.
Lemma tall_weight s a k i : stage_weight s a (tall k) i = power_sums s a k i.
Proof.
  revert i. induction k; intros i; [reflexivity|]. cbn [tall stage_weight fold_right power_sums]. rewrite Rmult_1_r.
  apply Rsum_ext. intros j Hj. rewrite IHk. reflexivity.
Qed.
Lemma stab_coeff_order s a b p : has_order s a b p -> forall m, (m <= p)%nat -> stab_coeff s a b m = 1 / INR (fact m).
Proof.
  intros Ho [|m] Hm; [simpl; lra|]. specialize (Ho (tall m)). rewrite tall_vertices in Ho. specialize (Ho Hm).
  unfold order_condition, weight in Ho. rewrite tall_density in Ho. rewrite <- Ho. simpl. apply Rsum_ext. intros i Hi.
  rewrite tall_weight. reflexivity.
Qed.
Lemma power_sums_lower s a : (forall i j, (i <= j)%nat -> (j < s)%nat -> a i j = 0) ->
  forall m i, (i < m)%nat -> (i < s)%nat -> power_sums s a m i = 0.
Proof.
  intros Hl. induction m as [|m IH]; intros i Hi His; [lia|]. simpl. apply Rsum_0. intros j Hj.
  destruct (Nat.lt_ge_cases j i) as [Hji|Hji]; [rewrite IH by lia; ring|rewrite Hl by lia; ring].
Qed.
Lemma rk_linear n s a b c f t h y y' k lam : rk_step n s a b c f t h y y' k ->
  (forall i j, (i <= j)%nat -> (j < s)%nat -> a i j = 0) ->
  (forall t y q, length y = n -> (q < n)%nat -> ventry (f t y) q = lam * ventry y q) ->
  forall q, (q < n)%nat -> ventry y' q = stability s a b (lam * h) * ventry y q.
Proof.
  intros (Lk & Hk & Hy) Hl Hf q Hq. set (z := lam * h).
  set (S_ := fun i => Rsum s (fun m => z ^ m * power_sums s a m i)).
  assert (HS : forall i, (i < s)%nat -> S_ i = 1 + z * Rsum s (fun j => a i j * S_ j)).
  { intros i Hi. unfold S_.
    rewrite (Rsum_ext s (fun j => a i j * _) (fun j => Rsum s (fun m => z ^ m * (a i j * power_sums s a m j)))).
    2:{ intros j Hj. rewrite <- Rsum_scal. apply Rsum_ext. intros. ring. }
    rewrite Rsum_swap.
    rewrite (Rsum_ext s (fun m => Rsum s _) (fun m => z ^ m * power_sums s a (S m) i)).
    2:{ intros m Hm. rewrite Rsum_scal. reflexivity. }
    rewrite <- Rsum_scal. transitivity (Rsum (S s) (fun m => z ^ m * power_sums s a m i)).
    - cbn [Rsum]. rewrite (power_sums_lower s a Hl s i) by lia. ring.
    - rewrite Rsum_shift. simpl (z ^ 0 * _). rewrite Rmult_1_l. f_equal. apply Rsum_ext. intros m Hm. cbn [pow]. ring. }
  assert (HK : forall i, (i < s)%nat -> ventry (nth i k []) q = lam * ventry y q * S_ i).
  { intros i. induction i as [i IH] using (well_founded_induction lt_wf). intros Hi.
    destruct (Hk i Hi) as [_ ->]. rewrite Hf by (apply vtab_length || exact Hq). rewrite ventry_vtab_ by exact Hq. rewrite (HS i Hi).
    rewrite (Rsum_ext s _ (fun j => lam * ventry y q * (a i j * S_ j))).
    - rewrite Rsum_scal. unfold z. ring.
    - intros j Hj. destruct (Nat.lt_ge_cases j i) as [Hji|Hji]; [rewrite IH by lia; ring|rewrite Hl by lia; ring]. }
  rewrite Hy, ventry_vtab_ by exact Hq. rewrite (Rsum_ext s _ (fun i => lam * ventry y q * (b i * S_ i))).
  2:{ intros i Hi. rewrite HK by exact Hi. ring. }
  rewrite Rsum_scal. unfold stability. rewrite Rsum_shift. cbn [stab_coeff]. simpl (z ^ 0).
  unfold S_. rewrite (Rsum_ext s (fun i => b i * _) (fun i => Rsum s (fun m => z ^ m * (b i * power_sums s a m i)))).
  2:{ intros i Hi. rewrite <- Rsum_scal. apply Rsum_ext. intros. ring. }
  rewrite Rsum_swap. rewrite (Rsum_ext s (fun m => Rsum s _) (fun m => z ^ m * Rsum s (fun i => b i * power_sums s a m i))).
  2:{ intros m Hm. rewrite Rsum_scal. reflexivity. }
  rewrite (Rsum_ext s (fun i => Rsum s (fun i0 => b i0 * power_sums s a i i0) * z ^ S i) (fun m => z * (z ^ m * Rsum s (fun i => b i * power_sums s a m i)))).
  2:{ intros m Hm. cbn [pow]. ring. }
  rewrite Rsum_scal. remember (Rsum s (fun m => z ^ m * Rsum s (fun i => b i * power_sums s a m i))) as G eqn:HG. unfold z. ring.
Qed.
