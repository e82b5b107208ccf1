(** Components that decay exponentially in explicit runs (C141). *)
From Coq Require Import Reals Lra Lia.
From Verif Require Import Model.Base Model.Scalar Model.LinAlg Model.Enums Model.Options Model.Coeffs Model.ErkCoeffs Model.Erk.
From Verif Require Import Spec.Sums Spec.Trees Spec.RkSpec Spec.Observe Spec.ErkSpec Spec.Methods Spec.SignSpec.
From Verif Require Import Proofs.SumsProofs Proofs.RVec Proofs.TablesFinal Proofs.ErkCoeffsProofs Proofs.RkExact Proofs.ErkProofs Proofs.ErkReal Proofs.ErkGeneric Proofs.ErkExact Proofs.StabPoly.
Local Open Scope R_scope.

Lemma rk_component n s a b c f t h y y' k p mu : rk_step n s a b c f t h y y' k -> (forall i j, (i <= j)%nat -> (j < s)%nat -> a i j = 0) ->
  (p < n)%nat -> (forall t y, length y = n -> ventry (f t y) p = mu * ventry y p) -> ventry y' p = stability s a b (mu * h) * ventry y p.
Proof.
  intros (Lk & Hk & Hy) Hl Hp Hf. set (z := mu * h) in * . set (P := fun i => Rsum s (fun m => z ^ m * power_sums s a m i)).
  assert (HP : forall i, (i < s)%nat -> P i = 1 + z * Rsum s (fun j => a i j * P j)).
  { intros i Hi. unfold P at 1. transitivity (Rsum (S s) (fun m => z ^ m * power_sums s a m i)).
    - cbn [Rsum]. rewrite (power_sums_lower s a Hl s i) by lia. ring.
    - rewrite Rsum_shift. cbn [power_sums pow]. rewrite Rmult_1_l. f_equal. unfold P.
      rewrite (Rsum_ext s (fun j => a i j * _) (fun j => Rsum s (fun m => z ^ m * (a i j * power_sums s a m j)))).
      2:{ intros j Hj. rewrite <- Rsum_scal. apply Rsum_ext. intros. ring. }
      rewrite Rsum_swap, <- Rsum_scal. apply Rsum_ext. intros m Hm. rewrite Rsum_scal. ring. }
  assert (HK : forall i, (i < s)%nat -> ventry (nth i k []) p = mu * ventry y p * P i).
  { intros i. induction i as [i IH] using (well_founded_induction lt_wf). intros Hi.
    destruct (Hk i Hi) as [_ ->]. rewrite Hf by apply vtab_length. rewrite ventry_vtab_ by assumption. rewrite (HP i Hi).
    rewrite (Rsum_ext s (fun j => a i j * ventry (nth j k []) p) (fun j => mu * ventry y p * (a i j * P j))).
    2:{ intros j Hj. destruct (Nat.lt_ge_cases j i) as [Hji|Hji]; [rewrite (IH j Hji Hj); ring|rewrite Hl by lia; ring]. }
    rewrite Rsum_scal. unfold z. ring. }
  rewrite Hy, ventry_vtab_ by assumption. unfold stability. rewrite Rsum_shift. cbn [stab_coeff pow].
  rewrite (Rsum_ext s (fun i => b i * ventry (nth i k []) p) (fun i => mu * ventry y p * (b i * P i))) by (intros i Hi; rewrite (HK i Hi); ring). rewrite Rsum_scal.
  assert (E : Rsum s (fun i => stab_coeff s a b (S i) * (z * z ^ i)) = z * Rsum s (fun i => b i * P i)).
  { unfold P. rewrite (Rsum_ext s (fun i => b i * _) (fun i => Rsum s (fun m => z ^ m * (b i * power_sums s a m i)))).
    2:{ intros j Hj. rewrite <- Rsum_scal. apply Rsum_ext. intros. ring. }
    rewrite Rsum_swap, <- Rsum_scal. apply Rsum_ext. intros m Hm. rewrite Rsum_scal. cbn [stab_coeff]. ring. }
  cbn [stab_coeff pow] in E. rewrite E. unfold z. ring.
Qed.

Lemma decay_factor sc m g d : In (m, g) decay_factors -> erk_get_coefficients m = Ok sc ->
  stability (length (sc_b sc)) (mentry (sc_A sc)) (ventry (sc_b sc)) (- d) = g d.
Proof.
  intros Hm Hg. cbn [decay_factors In] in Hm.
  destruct Hm as [E|[E|[E|[E|[E|[E|[]]]]]]]; (pose proof (f_equal snd E) as E2; apply (f_equal fst) in E; cbn [fst snd] in E, E2; subst m; rewrite <- E2).
  - etransitivity; [exact (poly_euler sc (- d) Hg)|ring].
  - etransitivity; [exact (poly_rk4 sc (- d) Hg)|field].
  - etransitivity; [exact (poly_bs sc (- d) Hg)|field].
  - etransitivity; [exact (poly_ck sc (- d) Hg)|field].
  - etransitivity; [exact (poly_dp sc (- d) Hg)|field].
  - etransitivity; [exact (poly_fb sc (- d) Hg)|field].
Qed.

Lemma growth_pos e4 e5 e6 d : 0 <= e4 -> 0 <= e5 -> 0 <= e6 -> d <= 0 -> 0 < 1 - d + d ^ 2 / 2 - d ^ 3 / 6 + e4 * d ^ 4 - e5 * d ^ 5 + e6 * d ^ 6.
Proof.
  intros H4 H5 H6 Hd. replace (1 - d + d ^ 2 / 2 - d ^ 3 / 6 + e4 * d ^ 4 - e5 * d ^ 5 + e6 * d ^ 6) with (1 + (- d) + (- d) ^ 2 / 2 + (- d) ^ 3 / 6 + e4 * (- d) ^ 4 + e5 * (- d) ^ 5 + e6 * (- d) ^ 6) by field.
  assert (P : forall i, 0 <= (- d) ^ i) by (intros i; apply pow_le; lra).
  pose proof (P 2%nat). pose proof (P 3%nat). pose proof (Rmult_le_pos _ _ H4 (P 4%nat)). pose proof (Rmult_le_pos _ _ H5 (P 5%nat)). pose proof (Rmult_le_pos _ _ H6 (P 6%nat)). lra.
Qed.
Lemma rk4_pos d : 0 < 1 - d + d ^ 2 / 2 - d ^ 3 / 6 + d ^ 4 / 24.
Proof.
  replace (1 - d + d ^ 2 / 2 - d ^ 3 / 6 + d ^ 4 / 24) with ((d * (d - 2)) ^ 2 / 24 + ((d - 3 / 2) ^ 2 / 3 + / 4)) by field.
  pose proof (pow2_ge_0 (d * (d - 2))). pose proof (pow2_ge_0 (d - 3 / 2)). lra.
Qed.
Lemma dp_pos d : 0 < 1 - d + d ^ 2 / 2 - d ^ 3 / 6 + d ^ 4 / 24 - d ^ 5 / 120 + d ^ 6 / 600.
Proof.
  replace (1 - d + d ^ 2 / 2 - d ^ 3 / 6 + d ^ 4 / 24 - d ^ 5 / 120 + d ^ 6 / 600)
    with ((d ^ 2 * (d - 5 / 2)) ^ 2 / 600 + (d * (d - 8 / 3)) ^ 2 / 32 + (5 / 18 * (d - 9 / 5) ^ 2 + / 10)) by field.
  pose proof (pow2_ge_0 (d ^ 2 * (d - 5 / 2))). pose proof (pow2_ge_0 (d * (d - 8 / 3))). pose proof (pow2_ge_0 (d - 9 / 5)). lra.
Qed.
Lemma ck_pos d : 0 < 1 - d + d ^ 2 / 2 - d ^ 3 / 6 + d ^ 4 / 24 - d ^ 5 / 120 + d ^ 6 / 800.
Proof.
  replace (1 - d + d ^ 2 / 2 - d ^ 3 / 6 + d ^ 4 / 24 - d ^ 5 / 120 + d ^ 6 / 800)
    with ((d ^ 2 * (d - 10 / 3)) ^ 2 / 800 + (d * (d - 3)) ^ 2 / 36 + (d - 2) ^ 2 / 4) by field.
  pose proof (pow2_ge_0 (d ^ 2 * (d - 10 / 3))). pose proof (pow2_ge_0 (d * (d - 3))).
  destruct (Req_dec d 2) as [->|Hd]; [lra|]. assert (0 < (d - 2) ^ 2) by (rewrite <- Rsqr_pow2; apply Rsqr_pos_lt; lra). lra.
Qed.
Lemma bs_sign d : (d < 1596 / 1000 -> 0 < 1 - d + d ^ 2 / 2 - d ^ 3 / 6) /\ (1597 / 1000 < d -> 1 - d + d ^ 2 / 2 - d ^ 3 / 6 < 0).
Proof.
  assert (G : forall c, 0 < 1 - (c + d) / 2 + (c ^ 2 + c * d + d ^ 2) / 6).
  { intros c. replace (1 - (c + d) / 2 + (c ^ 2 + c * d + d ^ 2) / 6) with ((d + c / 2 - 3 / 2) ^ 2 / 6 + ((c - 1) ^ 2 / 8 + / 2)) by field.
    pose proof (pow2_ge_0 (d + c / 2 - 3 / 2)). pose proof (pow2_ge_0 (c - 1)). lra. }
  assert (E : forall c, 1 - d + d ^ 2 / 2 - d ^ 3 / 6 = (c - d) * (1 - (c + d) / 2 + (c ^ 2 + c * d + d ^ 2) / 6) + (1 - c + c ^ 2 / 2 - c ^ 3 / 6)) by (intros c; field).
  split; intros H.
  - rewrite (E (1596 / 1000)). pose proof (Rmult_lt_0_compat (1596 / 1000 - d) _ ltac:(lra) (G (1596 / 1000))). lra.
  - rewrite (E (1597 / 1000)). pose proof (Rmult_lt_0_compat (d - 1597 / 1000) _ ltac:(lra) (G (1597 / 1000))). lra.
Qed.
Lemma term_le c a b i j : 0 <= c -> 0 <= a -> 0 <= b -> 0 <= c * (a ^ i * b ^ j).
Proof. intros. apply Rmult_le_pos; [assumption|]. apply Rmult_le_pos; apply pow_le; assumption. Qed.
Lemma fb_low d : 0 <= d < 47 / 20 -> 0 < 1 - d + d ^ 2 / 2 - d ^ 3 / 6 + d ^ 4 / 24 - d ^ 5 / 120 + d ^ 6 / 2080.
Proof.
  intros Hd. replace (1 - d + d ^ 2 / 2 - d ^ 3 / 6 + d ^ 4 / 24 - d ^ 5 / 120 + d ^ 6 / 2080) with ((64000000 / 10779215329) * ((d - (0 / 1)) ^ 0 * ((47 / 20) - d) ^ 6) + (233600000 / 10779215329) * ((d - (0 / 1)) ^ 1 * ((47 / 20) - d) ^ 5) + (384720000 / 10779215329) * ((d - (0 / 1)) ^ 2 * ((47 / 20) - d) ^ 4) + (1033348000 / 32337645987) * ((d - (0 / 1)) ^ 3 * ((47 / 20) - d) ^ 3) + (547068050 / 32337645987) * ((d - (0 / 1)) ^ 4 * ((47 / 20) - d) ^ 2) + (96039731 / 21558430658) * ((d - (0 / 1)) ^ 5 * ((47 / 20) - d) ^ 1) + (1095102707 / 67262303652960) * ((d - (0 / 1)) ^ 6 * ((47 / 20) - d) ^ 0)) by field.
  assert (0 < (47 / 20 - d) ^ 6) by (apply pow_lt; lra).
  repeat apply Rplus_lt_le_0_compat; try (apply term_le; lra). apply Rmult_lt_0_compat; [lra|]. cbn [pow] in * . lra.
Qed.
Lemma fb_mid d : 59 / 25 < d <= 12 -> 0 < - (1 - d + d ^ 2 / 2 - d ^ 3 / 6 + d ^ 4 / 24 - d ^ 5 / 120 + d ^ 6 / 2080).
Proof.
  intros Hd. replace (- (1 - d + d ^ 2 / 2 - d ^ 3 / 6 + d ^ 4 / 24 - d ^ 5 / 120 + d ^ 6 / 2080)) with ((603825277 / 1222606907467551840) * ((d - (59 / 25)) ^ 0 * ((12 / 1) - d) ^ 6) + (231801537455 / 61130345373377592) * ((d - (59 / 25)) ^ 1 * ((12 / 1) - d) ^ 5) + (2285822099375 / 61130345373377592) * ((d - (59 / 25)) ^ 2 * ((12 / 1) - d) ^ 4) + (3601429109375 / 15282586343344398) * ((d - (59 / 25)) ^ 3 * ((12 / 1) - d) ^ 3) + (3556212109375 / 5094195447781466) * ((d - (59 / 25)) ^ 4 * ((12 / 1) - d) ^ 2) + (2491291015625 / 2547097723890733) * ((d - (59 / 25)) ^ 5 * ((12 / 1) - d) ^ 1) + (3271484375 / 2547097723890733) * ((d - (59 / 25)) ^ 6 * ((12 / 1) - d) ^ 0)) by field.
  assert (0 < (d - 59 / 25) ^ 6) by (apply pow_lt; lra).
  apply Rplus_le_lt_0_compat; [repeat apply Rplus_le_le_0_compat; (apply term_le; lra)|]. apply Rmult_lt_0_compat; [lra|]. rewrite pow_O, Rmult_1_r. assumption.
Qed.
Lemma fb_high d : 1202 / 100 < d -> 0 < 1 - d + d ^ 2 / 2 - d ^ 3 / 6 + d ^ 4 / 24 - d ^ 5 / 120 + d ^ 6 / 2080.
Proof.
  intros Hd. replace (1 - d + d ^ 2 / 2 - d ^ 3 / 6 + d ^ 4 / 24 - d ^ 5 / 120 + d ^ 6 / 2080) with ((58440539058203 / 97500000000000) * (d - (601 / 50)) ^ 0 + (80178063120509 / 975000000000) * (d - (601 / 50)) ^ 1 + (284128876409 / 7800000000) * (d - (601 / 50)) ^ 2 + (253314103 / 39000000) * (d - (601 / 50)) ^ 3 + (1818209 / 3120000) * (d - (601 / 50)) ^ 4 + (4109 / 156000) * (d - (601 / 50)) ^ 5 + (1 / 2080) * (d - (601 / 50)) ^ 6) by field.
  repeat apply Rplus_lt_le_0_compat; try (apply Rmult_le_pos; [lra|apply pow_le; lra]). rewrite pow_O. lra.
Qed.

Lemma keeps_pos m d : keeps_sign m d -> exists g, In (m, g) decay_factors /\ 0 < g d.
Proof.
  intros [->|[->|[->|[[-> H]|[[-> H]|[-> H]]]]]].
  - eexists. split; [do 1 right; left; reflexivity|apply rk4_pos].
  - eexists. split; [do 3 right; left; reflexivity|apply ck_pos].
  - eexists. split; [do 4 right; left; reflexivity|apply dp_pos].
  - eexists. split; [left; reflexivity|]. cbv beta. lra.
  - eexists. split; [do 2 right; left; reflexivity|apply bs_sign; exact H].
  - eexists. split; [do 5 right; left; reflexivity|]. cbv beta. destruct H as [H|H]; [|apply fb_high; exact H]. destruct (Rle_lt_dec 0 d) as [H0|H0]; [apply fb_low; lra|].
    pose proof (growth_pos (/ 24) (/ 120) (/ 2080) d ltac:(lra) ltac:(lra) ltac:(lra) ltac:(lra)). lra.
Qed.
Lemma changes_neg m d : changes_sign m d -> exists g, In (m, g) decay_factors /\ g d < 0.
Proof.
  intros [[-> H]|[[-> H]|[-> H]]].
  - eexists. split; [left; reflexivity|]. cbv beta. lra.
  - eexists. split; [do 2 right; left; reflexivity|apply bs_sign; exact H].
  - eexists. split; [do 5 right; left; reflexivity|]. cbv beta. pose proof (fb_mid d ltac:(lra)). lra.
Qed.

Section Runs.
  Context {HE : Env R} {HL : LinAlg R} {HX : ExactProducts HL} {St : Type}.
  Lemma erk_decay (F : functor R St) f fuel t0 t1 y0 opts oo m dt w w' sol p lam g :
    computes F f -> decaying_component (length y0) p lam f -> In (m, g) decay_factors ->
    erk_odeint fuel F t0 t1 y0 opts oo m dt w = (w', Ok sol) ->
    forall k, (S k < length (eo_y_vals sol))%nat ->
    ventry (nth (S k) (eo_y_vals sol) []) p = g (lam * (nth (S k) (eo_t_vals sol) 0 - nth k (eo_t_vals sol) 0)) * ventry (nth k (eo_y_vals sol) []) p.
  Proof.
    intros HF [Hp Hf] Hm Hrun k Hk. destruct (erk_aligned F fuel t0 t1 y0 opts oo m dt w w' sol Hrun) as (_ & HLn & _).
    destruct (erk_steps F f HF _ _ _ _ _ _ _ _ _ _ _ Hrun) as (sc & Hi & Hg & Hs). rewrite HLn in Hk. destruct (Hs k Hk) as (K & _ & RK & _).
    destruct (sc_facts m sc Hi Hg) as (_ & _ & Hlow & _ & _).
    rewrite (rk_component _ _ _ _ _ _ _ _ _ _ _ p (- lam) RK Hlow Hp Hf). f_equal. rewrite <- (decay_factor sc m g _ Hm Hg). unfold mfun, vfun. f_equal. ring.
  Qed.
  Lemma erk_sign (F : functor R St) f fuel t0 t1 y0 opts oo m dt w w' sol p lam :
    computes F f -> decaying_component (length y0) p lam f -> erk_odeint fuel F t0 t1 y0 opts oo m dt w = (w', Ok sol) ->
    let y k := ventry (nth k (eo_y_vals sol) []) p in let d k := lam * (nth (S k) (eo_t_vals sol) 0 - nth k (eo_t_vals sol) 0) in
    ((forall k, (S k < length (eo_y_vals sol))%nat -> keeps_sign m (d k)) -> forall k, (k < length (eo_y_vals sol))%nat ->
       (0 < ventry y0 p -> 0 < y k) /\ (ventry y0 p < 0 -> y k < 0)) /\
    (forall k, (S k < length (eo_y_vals sol))%nat -> changes_sign m (d k) -> (0 < y k -> y (S k) < 0) /\ (y k < 0 -> 0 < y (S k))).
  Proof.
    intros HF Hf Hrun y d. assert (Y0 : y 0%nat = ventry y0 p) by (unfold y; destruct (y_first F fuel t0 t1 y0 opts oo m dt w w' sol Hrun) as [-> _]; reflexivity). split.
    - intros Hd. induction k as [|k IH]; intros Hk; [rewrite Y0; tauto|]. destruct (IH ltac:(lia)) as [I1 I2].
      destruct (keeps_pos m (d k) (Hd k Hk)) as (g & Hg & Hpos). pose proof (erk_decay F f fuel t0 t1 y0 opts oo m dt w w' sol p lam g HF Hf Hg Hrun k Hk) as E. fold (y (S k)) (y k) (d k) in E.
      rewrite E. split; intros H0.
      + apply Rmult_lt_0_compat; [exact Hpos|auto].
      + specialize (I2 H0). pose proof (Rmult_lt_0_compat (g (d k)) (- y k) Hpos ltac:(lra)). lra.
    - intros k Hk Hd. destruct (changes_neg m (d k) Hd) as (g & Hg & Hneg). pose proof (erk_decay F f fuel t0 t1 y0 opts oo m dt w w' sol p lam g HF Hf Hg Hrun k Hk) as E. fold (y (S k)) (y k) (d k) in E.
      rewrite E. split; intros H0.
      + pose proof (Rmult_lt_0_compat (- g (d k)) (y k) ltac:(lra) H0). lra.
      + pose proof (Rmult_lt_0_compat (- g (d k)) (- y k) ltac:(lra) ltac:(lra)). lra.
  Qed.
End Runs.
