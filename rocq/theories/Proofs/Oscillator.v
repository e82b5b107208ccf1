(** Undamped oscillations in explicit and multistep runs (C139). *)
From Coq Require Import Reals Lra Lia.
From Verif Require Import Model.Base Model.Scalar Model.LinAlg Model.Enums Model.Options Model.Coeffs Model.ErkCoeffs Model.Erk Model.Multistep.
From Verif Require Import Spec.Sums Spec.Trees Spec.RkSpec Spec.Observe Spec.NewtonSpec Spec.ErkSpec Spec.Methods Spec.MultistepSpec Spec.BdfLinearSpec Spec.OscillatorSpec.
From Verif Require Import Proofs.SumsProofs Proofs.RVec Proofs.TablesFinal Proofs.ErkCoeffsProofs Proofs.RkExact Proofs.ErkProofs Proofs.ErkReal Proofs.ErkGeneric Proofs.ErkExact Proofs.StabPoly Proofs.BdfLinear Proofs.AbCovariance.
Local Open Scope R_scope.

(** (z J)^m (u, v) for J (u, v) = (v, - u) *)
Fixpoint turn (z u v : R) (m : nat) : R * R := match m with O => (u, v) | S m => let '(a, b) := turn z u v m in (z * b, - z * a) end.
Lemma turn_fst z u v m : fst (turn z u v (S m)) = z * snd (turn z u v m).
Proof. cbn [turn]. destruct (turn z u v m). reflexivity. Qed.
Lemma turn_snd z u v m : snd (turn z u v (S m)) = - z * fst (turn z u v m).
Proof. cbn [turn]. destruct (turn z u v m). reflexivity. Qed.

Lemma rk_pair n s a b c f t h y y' k p q w : rk_step n s a b c f t h y y' k -> (forall i j, (i <= j)%nat -> (j < s)%nat -> a i j = 0) -> oscillating_pair n p q w f ->
  let V := turn (w * h) (ventry y p) (ventry y q) in
  ventry y' p = Rsum (S s) (fun m => stab_coeff s a b m * fst (V m)) /\ ventry y' q = Rsum (S s) (fun m => stab_coeff s a b m * snd (V m)).
Proof.
  intros (Lk & Hk & Hy) Hl (Hp & Hq & Hf) V. set (z := w * h) in * .
  assert (HG : forall X Y : nat -> R, (forall m, X (S m) = Y m) -> forall i, (i < s)%nat ->
    Rsum s (fun m => X m * power_sums s a m i) = X 0%nat + Rsum s (fun j => a i j * Rsum s (fun m => Y m * power_sums s a m j))).
  { intros X Y HXY i Hi.
    rewrite (Rsum_ext s (fun j => a i j * _) (fun j => Rsum s (fun m => Y m * (a i j * power_sums s a m j)))).
    2:{ intros j Hj. rewrite <- Rsum_scal. apply Rsum_ext. intros. ring. }
    rewrite Rsum_swap. rewrite (Rsum_ext s (fun m => Rsum s _) (fun m => X (S m) * power_sums s a (S m) i)).
    2:{ intros m Hm. rewrite Rsum_scal, HXY. reflexivity. }
    transitivity (Rsum (S s) (fun m => X m * power_sums s a m i)).
    - cbn [Rsum]. rewrite (power_sums_lower s a Hl s i) by lia. ring.
    - rewrite Rsum_shift. cbn [power_sums]. ring. }
  set (P := fun i => Rsum s (fun m => fst (V m) * power_sums s a m i)). set (Q := fun i => Rsum s (fun m => snd (V m) * power_sums s a m i)).
  assert (HP : forall i, (i < s)%nat -> P i = ventry y p + z * Rsum s (fun j => a i j * Q j)).
  { intros i Hi. unfold P. rewrite (HG (fun m => fst (V m)) (fun m => z * snd (V m)) (fun m => turn_fst _ _ _ m) i Hi). f_equal. rewrite <- Rsum_scal. apply Rsum_ext. intros j Hj.
    unfold Q. rewrite <- !Rsum_scal. apply Rsum_ext. intros m Hm. ring. }
  assert (HQ : forall i, (i < s)%nat -> Q i = ventry y q + - z * Rsum s (fun j => a i j * P j)).
  { intros i Hi. unfold Q. rewrite (HG (fun m => snd (V m)) (fun m => - z * fst (V m)) (fun m => turn_snd _ _ _ m) i Hi). f_equal. rewrite <- Rsum_scal. apply Rsum_ext. intros j Hj.
    unfold P. rewrite <- !Rsum_scal. apply Rsum_ext. intros m Hm. ring. }
  assert (HK : forall i, (i < s)%nat -> ventry (nth i k []) p = w * Q i /\ ventry (nth i k []) q = - w * P i).
  { intros i. induction i as [i IH] using (well_founded_induction lt_wf). intros Hi.
    destruct (Hk i Hi) as [_ ->]. match goal with |- context [f ?x ?v] => destruct (Hf x v) as [-> ->]; [apply vtab_length|] end. rewrite !ventry_vtab_ by assumption. rewrite (HP i Hi), (HQ i Hi).
    rewrite (Rsum_ext s (fun j => a i j * ventry (nth j k []) q) (fun j => - w * (a i j * P j))).
    2:{ intros j Hj. destruct (Nat.lt_ge_cases j i) as [Hji|Hji]; [rewrite (proj2 (IH j Hji Hj)); ring|rewrite Hl by lia; ring]. }
    rewrite (Rsum_ext s (fun j => a i j * ventry (nth j k []) p) (fun j => w * (a i j * Q j))).
    2:{ intros j Hj. destruct (Nat.lt_ge_cases j i) as [Hji|Hji]; [rewrite (proj1 (IH j Hji Hj)); ring|rewrite Hl by lia; ring]. }
    rewrite !Rsum_scal. unfold z. split; ring. }
  assert (HE : forall X Y : nat -> R, (forall m, X (S m) = Y m) -> X 0%nat + Rsum s (fun i => b i * Rsum s (fun m => Y m * power_sums s a m i)) = Rsum (S s) (fun m => stab_coeff s a b m * X m)).
  { intros X Y HXY. rewrite Rsum_shift. cbn [stab_coeff]. rewrite Rmult_1_l. f_equal.
    rewrite (Rsum_ext s (fun i => b i * _) (fun i => Rsum s (fun m => Y m * (b i * power_sums s a m i)))).
    2:{ intros j Hj. rewrite <- Rsum_scal. apply Rsum_ext. intros. ring. }
    rewrite Rsum_swap. apply Rsum_ext. intros m Hm. rewrite Rsum_scal, HXY. ring. }
  rewrite Hy, !ventry_vtab_ by assumption. split.
  - rewrite <- (HE (fun m => fst (V m)) (fun m => z * snd (V m)) (fun m => turn_fst _ _ _ m)). f_equal. rewrite <- Rsum_scal. apply Rsum_ext. intros i Hi. rewrite (proj1 (HK i Hi)).
    rewrite (Rsum_ext s (fun m => z * snd (V m) * power_sums s a m i) (fun m => z * (snd (V m) * power_sums s a m i))) by (intros; ring). rewrite Rsum_scal. fold (Q i). unfold z. ring.
  - rewrite <- (HE (fun m => snd (V m)) (fun m => - z * fst (V m)) (fun m => turn_snd _ _ _ m)). f_equal. rewrite <- Rsum_scal. apply Rsum_ext. intros i Hi. rewrite (proj2 (HK i Hi)).
    rewrite (Rsum_ext s (fun m => - z * fst (V m) * power_sums s a m i) (fun m => - z * (fst (V m) * power_sums s a m i))) by (intros; ring). rewrite Rsum_scal. fold (P i). unfold z. ring.
Qed.

(** the coefficients of the stability functions, from their values *)
Lemma coeffs_of (c : nat -> R) L e2 e3 e4 e5 e6 : (L <= 7)%nat ->
  (forall z, Rsum (S L) (fun m => c m * z ^ m) = 1 + z + e2 * z ^ 2 + e3 * z ^ 3 + e4 * z ^ 4 + e5 * z ^ 5 + e6 * z ^ 6) ->
  forall X, Rsum (S L) (fun m => c m * X m) = X 0%nat + X 1%nat + e2 * X 2%nat + e3 * X 3%nat + e4 * X 4%nat + e5 * X 5%nat + e6 * X 6%nat.
Proof.
  intros HL H. set (d := fun m => if Nat.leb m L then c m else 0).
  assert (HD : forall X, Rsum (S L) (fun m => c m * X m) = Rsum 8 (fun m => d m * X m)).
  { intros X. unfold d. clear -HL. do 8 (destruct L as [|L]; [cbn [Rsum Nat.leb]; ring|]). lia. }
  assert (HZ : forall z, Rsum 8 (fun m => d m * z ^ m) = 1 + z + e2 * z ^ 2 + e3 * z ^ 3 + e4 * z ^ 4 + e5 * z ^ 5 + e6 * z ^ 6) by (intros z; rewrite <- HD; apply H).
  clearbody d. intros X. rewrite HD. clear HD H.
  pose proof (HZ 0) as V0. pose proof (HZ 1) as V1. pose proof (HZ (-1)) as V2. pose proof (HZ 2) as V3. pose proof (HZ (-2)) as V4. pose proof (HZ 3) as V5. pose proof (HZ (-3)) as V6. pose proof (HZ 4) as V7.
  cbn [Rsum pow] in * . ring_simplify in V0. ring_simplify in V1. ring_simplify in V2. ring_simplify in V3. ring_simplify in V4. ring_simplify in V5. ring_simplify in V6. ring_simplify in V7.
  assert (E0 : d 0%nat = 1) by lra. assert (E1 : d 1%nat = 1) by lra. assert (E2 : d 2%nat = e2) by lra. assert (E3 : d 3%nat = e3) by lra. assert (E4 : d 4%nat = e4) by lra.
  assert (E5 : d 5%nat = e5) by lra. assert (E6 : d 6%nat = e6) by lra. assert (E7 : d 7%nat = 0) by lra.
  rewrite E0, E1, E2, E3, E4, E5, E6, E7. ring.
Qed.
Lemma turned c L e2 e3 e4 e5 e6 g z u v : (L <= 7)%nat ->
  (forall z, Rsum (S L) (fun m => c m * z ^ m) = 1 + z + e2 * z ^ 2 + e3 * z ^ 3 + e4 * z ^ 4 + e5 * z ^ 5 + e6 * z ^ 6) ->
  (forall x, (1 - e2 * x + e4 * x ^ 2 - e6 * x ^ 3) ^ 2 + x * (1 - e3 * x + e5 * x ^ 2) ^ 2 = g x) ->
  Rsum (S L) (fun m => c m * fst (turn z u v m)) ^ 2 + Rsum (S L) (fun m => c m * snd (turn z u v m)) ^ 2 = g (z ^ 2) * (u ^ 2 + v ^ 2).
Proof.
  intros HL H Hg. rewrite !(coeffs_of c L e2 e3 e4 e5 e6 HL H), <- Hg. cbn [turn fst snd]. ring.
Qed.
Lemma factor_holds sc m g z u v : In (m, g) oscillator_factors -> erk_get_coefficients m = Ok sc ->
  let s := length (sc_b sc) in let c := stab_coeff s (mentry (sc_A sc)) (ventry (sc_b sc)) in
  Rsum (S s) (fun m => c m * fst (turn z u v m)) ^ 2 + Rsum (S s) (fun m => c m * snd (turn z u v m)) ^ 2 = g (z ^ 2) * (u ^ 2 + v ^ 2).
Proof.
  intros Hm Hg s c. cbn [oscillator_factors In] in Hm.
  destruct Hm as [E|[E|[E|[E|[E|[E|[]]]]]]]; (pose proof (f_equal snd E) as E2; apply (f_equal fst) in E; cbn [fst snd] in E, E2; subst m; rename E2 into Eg).
  - apply (turned c s 0 0 0 0 0 g); [unfold s; rewrite (erk_get_det _ _ _ Hg eq_refl); cbn; lia|intros x; etransitivity; [exact (poly_euler sc x Hg)|ring]|intros x; rewrite <- Eg; field].
  - apply (turned c s (/ 2) (/ 6) (/ 24) 0 0 g); [unfold s; rewrite (erk_get_det _ _ _ Hg eq_refl); cbn; lia|intros x; etransitivity; [exact (poly_rk4 sc x Hg)|field]|intros x; rewrite <- Eg; field].
  - apply (turned c s (/ 2) (/ 6) 0 0 0 g); [unfold s; rewrite (erk_get_det _ _ _ Hg eq_refl); cbn; lia|intros x; etransitivity; [exact (poly_bs sc x Hg)|field]|intros x; rewrite <- Eg; field].
  - apply (turned c s (/ 2) (/ 6) (/ 24) (/ 120) (/ 800) g); [unfold s; rewrite (erk_get_det _ _ _ Hg eq_refl); cbn; lia|intros x; etransitivity; [exact (poly_ck sc x Hg)|field]|intros x; rewrite <- Eg; field].
  - apply (turned c s (/ 2) (/ 6) (/ 24) (/ 120) (/ 600) g); [unfold s; rewrite (erk_get_det _ _ _ Hg eq_refl); cbn; lia|intros x; etransitivity; [exact (poly_dp sc x Hg)|field]|intros x; rewrite <- Eg; field].
  - apply (turned c s (/ 2) (/ 6) (/ 24) (/ 120) (/ 2080) g); [unfold s; rewrite (erk_get_det _ _ _ Hg eq_refl); cbn; lia|intros x; etransitivity; [exact (poly_fb sc x Hg)|field]|intros x; rewrite <- Eg; field].
Qed.

Section Explicit.
  Context {HE : Env R} {HL : LinAlg R} {HX : ExactProducts HL} {St : Type}.
  Lemma erk_energy (F : functor R St) f fuel t0 t1 y0 opts oo m dt w w' sol p q om g :
    computes F f -> oscillating_pair (length y0) p q om f -> In (m, g) oscillator_factors ->
    erk_odeint fuel F t0 t1 y0 opts oo m dt w = (w', Ok sol) ->
    forall k, (S k < length (eo_y_vals sol))%nat ->
    energy p q (nth (S k) (eo_y_vals sol) []) = g ((om * (nth (S k) (eo_t_vals sol) 0 - nth k (eo_t_vals sol) 0)) ^ 2) * energy p q (nth k (eo_y_vals sol) []).
  Proof.
    intros HF Hf Hm Hrun k Hk. destruct (erk_aligned F fuel t0 t1 y0 opts oo m dt w w' sol Hrun) as (_ & HLn & _).
    destruct (erk_steps F f HF _ _ _ _ _ _ _ _ _ _ _ Hrun) as (sc & Hi & Hg & Hs). rewrite HLn in Hk. destruct (Hs k Hk) as (K & _ & RK & _).
    destruct (sc_facts m sc Hi Hg) as (_ & _ & Hlow & _ & _).
    destruct (rk_pair _ _ _ _ _ _ _ _ _ _ _ p q om RK Hlow Hf) as [Ep Eq]. unfold energy. rewrite Ep, Eq. apply (factor_holds sc m g); assumption.
  Qed.
  Lemma stable_factor m lim x : In (m, lim) oscillator_stable -> 0 <= x <= lim -> exists g, In (m, g) oscillator_factors /\ g x <= 1.
  Proof.
    intros Hm Hx. cbn [oscillator_stable In] in Hm. assert (P2 : 0 <= x ^ 2) by apply pow2_ge_0. assert (P3 : 0 <= x ^ 3) by (apply pow_le; lra).
    destruct Hm as [E|[E|[E|[]]]]; injection E as <- <-.
    - eexists. split; [right; left; reflexivity|]. cbv beta. replace (1 - x ^ 3 / 72 + x ^ 4 / 576) with (1 - x ^ 3 * ((8 - x) / 576)) by field. assert (0 <= x ^ 3 * ((8 - x) / 576)) by (apply Rmult_le_pos; lra). lra.
    - eexists. split; [right; right; left; reflexivity|]. cbv beta. replace (1 - x ^ 2 / 12 + x ^ 3 / 36) with (1 - x ^ 2 * ((3 - x) / 36)) by field. assert (0 <= x ^ 2 * ((3 - x) / 36)) by (apply Rmult_le_pos; lra). lra.
    - eexists. split; [do 4 right; left; reflexivity|]. cbv beta.
      replace (1 - x ^ 3 / 1800 + x ^ 4 / 1600 - x ^ 5 / 14400 + x ^ 6 / 360000) with (1 - x ^ 3 * (/ 1800 - x / 1600 + x ^ 2 / 14400 - x ^ 3 / 360000)) by field.
      assert (0 <= x ^ 3 * (/ 1800 - x / 1600 + x ^ 2 / 14400 - x ^ 3 / 360000)). { apply Rmult_le_pos; [exact P3|]. assert (x ^ 3 <= 99 / 100 * x ^ 2) by (cbn; nra). nra. } lra.
  Qed.
  Lemma unstable_factor m x : oscillator_unstable m x -> exists g, In (m, g) oscillator_factors /\ 1 < g x.
  Proof.
    intros H. assert (G : 0 < x) by (unfold oscillator_unstable in H; intuition lra). assert (P2 : 0 < x ^ 2) by (apply pow_lt; exact G). assert (P3 : 0 < x ^ 3) by (apply pow_lt; exact G).
    destruct H as [[-> H]|[[-> H]|[[-> H]|[[-> H]|[[-> H]|[-> H]]]]]].
    - eexists. split; [left; reflexivity|]. cbv beta. lra.
    - eexists. split; [do 3 right; left; reflexivity|]. cbv beta.
      replace (1 + x ^ 3 / 3600 + x ^ 4 / 4800 - x ^ 5 / 28800 + x ^ 6 / 640000) with (1 + x ^ 3 * (/ 3600 + x * (/ 4800 - x / 28800 + x ^ 2 / 640000))) by field.
      assert (0 < x ^ 3 * (/ 3600 + x * (/ 4800 - x / 28800 + x ^ 2 / 640000))). { apply Rmult_lt_0_compat; [exact P3|]. replace (/ 3600 + x * (/ 4800 - x / 28800 + x ^ 2 / 640000)) with (/ 3600 + x * ((x / 800 - / 72) ^ 2 + (/ 4800 - / 5184))) by field. assert (0 <= x * ((x / 800 - / 72) ^ 2 + (/ 4800 - / 5184))) by (apply Rmult_le_pos; [lra|]; pose proof (pow2_ge_0 (x / 800 - / 72)); lra). lra. } lra.
    - eexists. split; [right; left; reflexivity|]. cbv beta. replace (1 - x ^ 3 / 72 + x ^ 4 / 576) with (1 + x ^ 3 * ((x - 8) / 576)) by field. assert (0 < x ^ 3 * ((x - 8) / 576)) by (apply Rmult_lt_0_compat; lra). lra.
    - eexists. split; [right; right; left; reflexivity|]. cbv beta. replace (1 - x ^ 2 / 12 + x ^ 3 / 36) with (1 + x ^ 2 * ((x - 3) / 36)) by field. assert (0 < x ^ 2 * ((x - 3) / 36)) by (apply Rmult_lt_0_compat; lra). lra.
    - eexists. split; [do 4 right; left; reflexivity|]. cbv beta.
      replace (1 - x ^ 3 / 1800 + x ^ 4 / 1600 - x ^ 5 / 14400 + x ^ 6 / 360000) with (1 + x ^ 3 * (- / 1800 + x * (/ 1600 - x / 14400 + x ^ 2 / 360000))) by field.
      assert (0 < x ^ 3 * (- / 1800 + x * (/ 1600 - x / 14400 + x ^ 2 / 360000))). { apply Rmult_lt_0_compat; [exact P3|]. replace (- / 1800 + x * (/ 1600 - x / 14400 + x ^ 2 / 360000)) with (/ 360000 + (x - 1) * (((x - 1) / 600 - 11 / 600) ^ 2 + (178 / 360000 - 121 / 360000))) by field. assert (0 <= (x - 1) * (((x - 1) / 600 - 11 / 600) ^ 2 + (178 / 360000 - 121 / 360000))) by (apply Rmult_le_pos; [lra|]; pose proof (pow2_ge_0 ((x - 1) / 600 - 11 / 600)); lra). lra. } lra.
    - eexists. split; [do 5 right; left; reflexivity|]. cbv beta.
      replace (1 + x ^ 3 * 17 / 9360 - x ^ 4 * 7 / 12480 + x ^ 5 * 11 / 374400 + x ^ 6 / 4326400) with (1 + x ^ 3 * (17 / 9360 - x * 7 / 12480 + x ^ 2 * 11 / 374400 + x ^ 3 / 4326400)) by field.
      assert (0 < x ^ 3 * (17 / 9360 - x * 7 / 12480 + x ^ 2 * 11 / 374400 + x ^ 3 / 4326400)). { apply Rmult_lt_0_compat; [exact P3|]. assert (0 <= (4 - x) ^ 2) by apply pow2_ge_0. cbn [pow] in * . lra. } lra.
  Qed.
End Explicit.

Section Runs.
  Context {HE : Env R} {HL : LinAlg R} {HX : ExactProducts HL} {St : Type}.
  Lemma erk_energy_drift (F : functor R St) f fuel t0 t1 y0 opts oo m dt w w' sol p q om :
    computes F f -> oscillating_pair (length y0) p q om f -> erk_odeint fuel F t0 t1 y0 opts oo m dt w = (w', Ok sol) ->
    let E k := energy p q (nth k (eo_y_vals sol) []) in let x k := (om * (nth (S k) (eo_t_vals sol) 0 - nth k (eo_t_vals sol) 0)) ^ 2 in
    (forall lim, In (m, lim) oscillator_stable -> (forall k, (S k < length (eo_y_vals sol))%nat -> x k <= lim) ->
       forall j k, (j <= k < length (eo_y_vals sol))%nat -> E k <= E j) /\
    ((forall k, (S k < length (eo_y_vals sol))%nat -> oscillator_unstable m (x k)) -> 0 < energy p q y0 ->
       forall j k, (j < k < length (eo_y_vals sol))%nat -> E j < E k).
  Proof.
    intros HF Hf Hrun E x. assert (HE0 : forall k, 0 <= E k) by (intros k; unfold E, energy; pose proof (pow2_ge_0 (ventry (nth k (eo_y_vals sol) []) p)); pose proof (pow2_ge_0 (ventry (nth k (eo_y_vals sol) []) q)); lra). split.
    - intros lim Hm Hx j k Hjk. assert (G : forall d, (j + d < length (eo_y_vals sol))%nat -> E (j + d)%nat <= E j).
      { induction d as [|d IH]; intros Hd; [rewrite Nat.add_0_r; lra|]. rewrite Nat.add_succ_r in * . eapply Rle_trans; [|apply IH; lia].
        destruct (stable_factor m lim (x (j + d)%nat) Hm) as (g & Hg & Hle); [split; [apply pow2_ge_0|apply Hx; exact Hd]|].
        unfold E. rewrite (erk_energy F f fuel t0 t1 y0 opts oo m dt w w' sol p q om g HF Hf Hg Hrun (j + d) Hd). fold (x (j + d)%nat) (E (j + d)%nat).
        rewrite <- (Rmult_1_l (E (j + d)%nat)) at 2. apply Rmult_le_compat_r; [apply HE0|exact Hle]. }
      replace k with (j + (k - j))%nat by lia. apply G. lia.
    - intros Hx Hp. assert (S : forall k, (S k < length (eo_y_vals sol))%nat -> 0 < E k -> E k < E (S k)).
      { intros k Hk Hpk. destruct (unstable_factor m (x k) (Hx k Hk)) as (g & Hg & Hlt). unfold E. rewrite (erk_energy F f fuel t0 t1 y0 opts oo m dt w w' sol p q om g HF Hf Hg Hrun k Hk). fold (x k) (E k).
        rewrite <- (Rmult_1_l (E k)) at 1. apply Rmult_lt_compat_r; assumption. }
      assert (P : forall k, (k < length (eo_y_vals sol))%nat -> 0 < E k).
      { induction k as [|k IH]; intros Hk; [|specialize (IH ltac:(lia)); specialize (S k Hk IH); lra].
        destruct (y_first F fuel t0 t1 y0 opts oo m dt w w' sol Hrun) as [H0 _]. unfold E. rewrite H0. exact Hp. }
      intros j k Hjk. assert (G : forall d, (j + Datatypes.S d < length (eo_y_vals sol))%nat -> E j < E (j + Datatypes.S d)%nat).
      { induction d as [|d IH]; intros Hd; rewrite Nat.add_succ_r in * .
        - rewrite Nat.add_0_r in * . apply S; [exact Hd|apply P; lia].
        - eapply Rlt_trans; [apply IH; lia|]. rewrite Nat.add_succ_r in * . apply S; [exact Hd|apply P; lia]. }
      replace k with (j + Datatypes.S (k - j - 1))%nat by lia. apply G. lia.
  Qed.
End Runs.

Lemma ab_energy (LA : LinAlg R) (HE : Env R) (St : Type) (F : functor R St) f fuel t0 t1 y0 dt w w' sol p q om :
  computes F f -> oscillating_pair (length y0) p q om f -> t0 < t1 -> adams_bashforth fuel F t0 t1 y0 1 dt w = (w', Ok sol) ->
  forall i, (S i < length (bo_y_vals sol))%nat -> energy p q (nth (S i) (bo_y_vals sol) []) = (1 + (om * Rmin dt (t1 - t0)) ^ 2) * energy p q (nth i (bo_y_vals sol) []).
Proof.
  intros HF (Hp & Hq & Hf) Ht E i Hi.
  destruct (ab_facts LA HE St F f fuel t0 t1 y0 1 dt w w' sol HF Ht (Zle_bool_imp_le 1 5 eq_refl) E) as (_ & _ & _ & HN & _ & _ & _ & Hlen & _ & Hs).
  rewrite HN in Hi. assert (Hr : (Z.to_nat 1 <= S i < length (bo_t_vals sol))%nat) by (change (Z.to_nat 1) with 1%nat; lia). specialize (Hs (S i) Hr). change (Z.to_nat 1) with 1%nat in Hs.
  assert (Li : length (yval (bo_y_vals sol) i) = length y0) by (apply Hlen; lia).
  pose proof (proj2 Hs p Hp) as Ep. pose proof (proj2 Hs q Hq) as Eq. cbn [Rsum] in Ep, Eq. replace (S i - 1 - 0)%nat with i in * by lia. replace (S i - 1)%nat with i in * by lia.
  set (h := Rmin dt (t1 - t0)) in * . unfold ab_weight in Ep, Eq. cbn [nth ab_table Nat.sub] in Ep, Eq.
  rewrite (proj1 (Hf _ _ Li)) in Ep. rewrite (proj2 (Hf _ _ Li)) in Eq. unfold energy. unfold yval in * . rewrite Ep, Eq. ring.
Qed.
Lemma bdf_energy (LA : LinAlg R) (HP : ExactProducts LA) (HX : ExactSolve LA) (HN : ExactNorm LA) (HE : Env R) (St : Type) (F : functor R St) A g fuel t0 t1 y0 dt w w' sol p q om :
  affine_problem F (length y0) A g -> oscillating_pair (length y0) p q om (affine_rhs (length y0) A g) -> bdf_solvable (length y0) (Rmin dt (t1 - t0)) A ->
  t0 < t1 -> bdf fuel F t0 t1 y0 1 dt w = (w', Ok sol) ->
  forall i, (1 <= i)%nat -> (S i < length (bo_y_vals sol))%nat -> energy p q (nth i (bo_y_vals sol) []) = (1 + (om * Rmin dt (t1 - t0)) ^ 2) * energy p q (nth (S i) (bo_y_vals sol) []).
Proof.
  intros HF (Hp & Hq & Hf) Hs Ht E i H1 Hi.
  destruct (bdf_facts LA HP HX HN HE St F A g fuel t0 t1 y0 1 dt w w' sol HF Ht (conj (Z.le_refl 1) (Zle_bool_imp_le 1 6 eq_refl)) E) as (_ & _ & _ & HNl & _ & _ & _ & _ & Hlen & _ & Hr).
  { change (Z.to_nat 1) with 1%nat. unfold bdf_beta. cbn [nth Nat.sub]. rewrite Rmult_1_r. exact Hs. }
  rewrite HNl in Hi. change (Z.to_nat 1) with 1%nat in Hr.
  assert (Li : length (yval (bo_y_vals sol) (S i)) = length y0) by (apply Hlen; lia).
  pose proof (Hr (S i) p ltac:(lia) Hp) as Ep. pose proof (Hr (S i) q ltac:(lia) Hq) as Eq. unfold bdf_residual in Ep, Eq. cbn [Rsum] in Ep, Eq. replace (S i - 1 - 0)%nat with i in * by lia.
  set (h := Rmin dt (t1 - t0)) in * . unfold bdf_weight, bdf_beta in Ep, Eq. cbn [nth bdf_table Nat.sub] in Ep, Eq.
  rewrite (proj1 (Hf _ _ Li)) in Ep. rewrite (proj2 (Hf _ _ Li)) in Eq. unfold energy, yval in * .
  set (a := ventry (nth (S i) (bo_y_vals sol) []) p) in * . set (b := ventry (nth (S i) (bo_y_vals sol) []) q) in * .
  set (c := ventry (nth i (bo_y_vals sol) []) p) in * . set (d := ventry (nth i (bo_y_vals sol) []) q) in * .
  assert (Ec : c = a - h * om * b) by lra. assert (Ed : d = b + h * om * a) by lra. rewrite Ec, Ed. ring.
Qed.
