(** Runs with the same times beside C140: y' = (cos t, - cos t) and y' = (0.99 cos t, - 0.99 cos t) in one step. *)
From Coq Require Import Reals Lra Sorting.Sorted.
From Verif Require Import Model.Base Model.Scalar Model.LinAlg Model.Newton Model.Enums Model.Options Model.Coeffs Model.Irk Model.IrkCoeffs.
From Verif Require Import Spec.Sums Spec.Trees Spec.RkSpec Spec.Observe Spec.ErkSpec Spec.NewtonSpec Spec.IrkSpec Spec.IrkRunSpec Spec.Methods Spec.IrkTotalSpec Spec.ConvergenceSpec.
From Verif Require Import Proofs.LoopProofs Proofs.SumsProofs Proofs.OrderProofs Proofs.TablesGeneric Proofs.ErkProofs Proofs.ErkReal Proofs.ErkTimes Proofs.NewtonProofs Proofs.NewtonTotal Proofs.RVec
  Proofs.IrkProofs Proofs.IrkReal Proofs.IrkStages Proofs.IrkRun Proofs.IrkGeneric Proofs.IrkResults Proofs.IrkFinal Proofs.IrkSteps Proofs.IrkTimes Proofs.IrkExact Proofs.IrkTotal Proofs.IrkStart Proofs.IrkBounded Proofs.IrkSmall Proofs.IrkReturns Proofs.IrkShort
  Proofs.ChoiceInstance Proofs.ChoiceLU Proofs.IrkTotalExamples Proofs.ConvergenceIrkExamples.
Local Open Scope R_scope.

Section One.
  Context {LA : LinAlg R} {HP : ExactProducts LA} {HX : ExactSolve LA} {HLU : ExactLU LA} {HI : ExactInverse LA} {HE : Env R} {St : Type}.
  Local Notation W := (world R St).
  Lemma one_step_times (F : functor R St) f n opts oo m nopts sc B K hmax :
    ndebug = false -> In m implicit_runnable -> irk_get_coefficients m = Ok sc -> io_newton opts = Some nopts -> (2 <= o_maxit nopts < 2 ^ 30)%Z -> 0 < o_tol nopts -> o_refresh_jac nopts <> 0%Z ->
    io_adaptive opts = true -> 0 < io_abs_tol opts -> 0 <= io_rel_tol opts -> usable_output oo -> store_in_vectors oo = true -> output_interval oo = 1%Z -> (0 < n)%nat ->
    returns_dim F n -> computes F f -> returns_jac F n -> jac_matrices F -> bounded_rhs F n B K -> 0 < hmax -> solvable_up_to F n sc hmax ->
    exists hs, 0 < hs /\ forall t0 t1 y0 dt (w : W), length y0 = n -> 0 < t1 - t0 <= hs -> t1 - t0 <= dt ->
      exists w' sol, irk_odeint 1 F t0 t1 y0 opts oo m dt w = (w', Ok sol) /\ io_t_vals sol = [t0; t1].
  Proof.
    intros Hdeb Hm Hg Hno Hmx Htol Hrf Had Hat Hrt Hoo Hsv Hoi Hn HF Hf HJ HJm HBK Hhm Hsol.
    destruct (start_run_R F 0 1 (vtab n (fun _ => 0)) opts oo m 1 nopts Hdeb Hm Hno ltac:(lra) ltac:(lra)) as (sc' & mo & dw & d2w & _ & Hst & _).
    assert (sc' = sc) by (pose proof (st_sc _ _ _ _ _ _ _ _ _ _ Hst); congruence). subst sc'.
    destruct (small_exists n opts sc nopts dw d2w 1 B K ltac:(lra) Hat Htol 1 ltac:(lra)) as (hs & Hhs & Hsmall).
    exists (Rmin hs hmax). split; [apply Rmin_glb_lt; lra|]. intros t0 t1 y0 dt w Ly Hh Hdt.
    pose proof (Rmin_l hs hmax). pose proof (Rmin_r hs hmax).
    destruct (start_run_R F t0 t1 y0 opts oo m dt nopts Hdeb Hm Hno ltac:(lra) ltac:(lra)) as (sc' & mo' & dw' & d2w' & _ & Hst' & Hrun).
    assert (sc' = sc) by (pose proof (st_sc _ _ _ _ _ _ _ _ _ _ Hst'); congruence). subst sc'.
    assert (dw' = dw /\ d2w' = d2w) as [-> ->].
    { destruct (st_dw _ _ _ _ _ _ _ _ _ _ Hst) as (A1 & a1 & a2 & a3). destruct (st_dw _ _ _ _ _ _ _ _ _ _ Hst') as (A2 & b1 & b2 & b3). assert (A1 = A2) by congruence. subst A2. split; congruence. }
    set (st := irk_init t0 y0 (length (sc_b sc)) nopts (clip t1 t0 dt)) in Hrun.
    assert (HG : good_state n t0 t1 nopts (t1 - t0) st) by (apply init_good; [exact Ly|lra|lra|lra]).
    assert (Ec : clip t1 (is_t st) (is_dt st) = t1 - t0). { unfold st. cbn [irk_init is_t is_dt]. rewrite !clip_R. rewrite (Rmin_right dt (t1 - t0)) by lra. apply Rmin_right. lra. }
    assert (Hsol' : solvable_up_to F n sc (t1 - t0)) by (apply (solvable_le F n sc _ hmax); [lra|exact Hsol]).
    assert (HO : no_overflow nopts st). { unfold no_overflow, st. cbn [irk_init is_maxit]. repeat split; lia. }
    assert (El : limit_hit opts st = false). { unfold limit_hit, st. cbn [irk_init is_step]. destruct (0 <=? io_max_steps opts)%Z eqn:E; [|reflexivity]. apply Z.leb_le in E. apply andb_false_iff. right. apply Z.ltb_ge. exact E. }
    destruct (small_accepted Hdeb F f n t0 t1 opts oo m dt sc nopts mo' dw d2w (t1 - t0) Hst' Hn HF HJ HJm Hf Hsol' Hoo Had Hrf (fun _ => True) 1 B K ltac:(lra) (bounded_everywhere F n B K HBK) ltac:(lia) Hat Hrt 1 ltac:(lra) st w HG I ltac:(cbn; lra) El HO ltac:(lra))
      as (w' & st' & E & Et & Es & _). { apply Hsmall. rewrite Ec. lra. }
    assert (Ew : while (fun s => is_t s <?. t1)%sc (irk_body F t1 opts sc oo nopts mo' dw d2w) 1 st w = (w', Ok (inl st'))).
    { cbn [while]. change (sltb (Scalar := RScalar)) with Rltb. assert (E1 : Rltb (is_t st) t1 = true) by (unfold Rltb; destruct (Rlt_dec (is_t st) t1) as [|N]; [reflexivity|exfalso; apply N; cbn; lra]). rewrite E1.
      rewrite (bind_run _ _ _ _ _ E). assert (E2 : Rltb (is_t st') t1 = false). { unfold Rltb. destruct (Rlt_dec (is_t st') t1) as [N|]; [|reflexivity]. exfalso. rewrite Et, Ec in N. cbn in N. lra. }
      cbn [while]; change (sltb (Scalar := RScalar)) with Rltb; rewrite E2; reflexivity. }
    assert (Er : irk_odeint 1 F t0 t1 y0 opts oo m dt w = (w', Ok (final (inl st')))) by (rewrite Hrun, (bind_run _ _ _ _ _ Ew); reflexivity).
    exists w', (final (inl st')). split; [exact Er|].
    assert (Hdt' : ndebug = false \/ (t0 < t1 /\ 0 < dt)) by (left; exact Hdeb).
    destruct (irk_times F _ _ _ _ _ _ _ _ _ _ _ Hdt' Er ltac:(lra)) as (T1 & T2 & T3).
    destruct (irk_accounting _ _ _ _ _ _ _ _ _ _ _ _ Er) as (A1 & _ & _ & _ & A2 & A3). specialize (A2 Hoi Hsv).
    assert (A4 : io_accept_frac (final (inl st')) = Some (sZ (is_step st') /. sZ (Z.of_nat (ct_attempt (io_count (is_sol st')))))%sc) by reflexivity.
    assert (A5 : io_count (is_sol st') = io_count (final (inl st'))) by reflexivity. rewrite A5 in A4. clear A5. rewrite Es in A4. change (is_step st) with 0%Z in A4. cbn [Z.add] in A4.
    set (sol := final (inl st')) in * . clearbody sol.
    destruct A3 as [(B1 & B2 & _ & B4)|[(_ & _ & _ & B4)|(_ & _ & _ & _ & _ & _ & B4)]]; [|congruence|congruence].
    specialize (T3 B1 Hsv Hoi). set (acc := (ct_newton_success (io_count sol) - ct_reject_err (io_count sol))%nat) in * .
    assert (Ht0 : nth 0 (io_t_vals sol) 0 = t0).
    { destruct (irk_accepted_steps F f Hf HJm _ _ _ _ _ _ _ _ _ _ _ Hdt' Er) as (_ & _ & atts & _ & _ & (R1 & _) & _). rewrite R1. reflexivity. }
    assert (Hacc : (1 <= acc)%nat).
    { destruct acc as [|k]; [|lia]. destruct (io_t_vals sol) as [|u [|v l]]; [discriminate A2| |discriminate A2]. cbn in Ht0, T3. lra. }
    assert (Ea : (1 = acc)%nat).
    { rewrite A4 in B4. injection B4 as B4. assert (Hat' : (1 <= ct_attempt (io_count sol))%nat) by lia. cbn in B4. unfold Rlit in B4. apply (f_equal (fun v => v * IZR (Z.of_nat (ct_attempt (io_count sol))))) in B4.
      assert (Hz : IZR (Z.of_nat (ct_attempt (io_count sol))) <> 0) by (apply not_0_IZR; lia). unfold Rdiv in B4. rewrite !Rmult_assoc in B4. rewrite Rinv_l in B4 by exact Hz. rewrite !Rmult_1_r in B4. apply eq_IZR in B4. lia. }
    rewrite <- Ea in A2. destruct (io_t_vals sol) as [|u [|v [|x l]]]; try discriminate A2. cbn in Ht0, T3. congruence.
  Qed.
End One.

Lemma ij_bound t : Rabs (99 / 100 * cos t) <= 1.
Proof. rewrite Rabs_mult, (Rabs_pos_eq (99 / 100)) by lra. pose proof (it_cos t). pose proof (Rabs_pos (cos t)). lra. Qed.
Definition ij_g (t : R) : R := 99 / 100 * cos t.
Lemma ij_close t y q : (q < 2)%nat -> Rabs (ventry (it_f cos t y) q - ventry (it_f ij_g t y) q) <= 1 / 100.
Proof.
  intros Hq. assert (B : Rabs (1 / 100 * cos t) <= 1 / 100) by (rewrite Rabs_mult, (Rabs_pos_eq (1 / 100)) by lra; pose proof (it_cos t); lra).
  destruct q as [|[|q]]; [| |lia]; unfold ventry, it_f, ij_g; cbn [nth].
  - replace (cos t - 99 / 100 * cos t) with (1 / 100 * cos t) by lra. exact B.
  - replace (- cos t - - (99 / 100 * cos t)) with (- (1 / 100 * cos t)) by lra. rewrite Rabs_Ropp. exact B.
Qed.
Lemma ij_lipschitz g t0 t1 : lipschitz_in 2 0 t0 t1 (it_f g).
Proof. intros t y z e _ _ _ _ q _. unfold it_f. rewrite Rminus_diag_eq, Rabs_R0 by reflexivity. lra. Qed.
Lemma ij_jac g t0 t1 : jac_bounded (it_F g) 2 0 t0 t1.
Proof. intros t y J _ _ HJ i j Hi Hj. rewrite (it_zero g _ _ _ _ _ HJ Hi Hj), Rabs_R0. lra. Qed.
Definition ij_opts (tau : R) : irk_options R := IrkOptions true (1 / 1000) (1 / 1000) 0 1000 (Some (ic_nopts tau)).
Lemma ij_one g m tau : 0 < tau -> (forall t, Rabs (g t) <= 1) -> In m implicit_runnable -> exists hs, 0 < hs /\ forall h y, 0 < h <= hs -> length y = 2%nat -> exists w' r,
  @irk_odeint R RScalar choice_LA it_E unit 1 (it_F g) 0 h y (ij_opts tau) output_options_default m h (World tt []) = (w', Ok r) /\ io_t_vals r = [0; h].
Proof.
  intros Htau Hg Hm. destruct (irk_get_ok (T := R) m) as (sc & Hsc & _).
  destruct (one_step_times (LA := choice_LA) (HE := it_E) (it_F g) (it_f g) 2 (ij_opts tau) output_options_default m (ic_nopts tau) sc 1 0 1) as (hs & Hhs & Hr);
    try reflexivity; try assumption; try (cbn; lra); try (cbn; lia).
  - split; [cbn; lia|cbn; discriminate].
  - apply it_dim.
  - apply it_computes.
  - apply it_returns_jac.
  - apply it_matrices.
  - apply it_bounded. exact Hg.
  - apply it_solvable.
  - exists hs. split; [exact Hhs|]. intros h y Hh Hy. exact (Hr 0 h y h (World tt []) Hy ltac:(lra) ltac:(lra)).
Qed.
Lemma ij_runs m : In m implicit_runnable -> exists hs, 0 < hs /\ forall h, 0 < h <= hs -> exists w1 r1 w2 r2,
  @irk_odeint R RScalar choice_LA it_E unit 1 (it_F cos) 0 h [1; 2] (ij_opts (1 / 1000)) output_options_default m h (World tt []) = (w1, Ok r1) /\
  @irk_odeint R RScalar choice_LA it_E unit 1 (it_F ij_g) 0 h [11 / 10; 2] (ij_opts (1 / 1000)) output_options_default m h (World tt []) = (w2, Ok r2) /\
  io_t_vals r1 = [0; h] /\ io_t_vals r2 = io_t_vals r1.
Proof.
  intros Hm. destruct (ij_one cos m (1 / 1000) ltac:(lra) it_cos Hm) as (h1 & P1 & Q1). destruct (ij_one ij_g m (1 / 1000) ltac:(lra) ij_bound Hm) as (h2 & P2 & Q2).
  exists (Rmin h1 h2). split; [apply Rmin_glb_lt; assumption|]. intros h Hh. pose proof (Rmin_l h1 h2). pose proof (Rmin_r h1 h2).
  destruct (Q1 h [1; 2] ltac:(lra) eq_refl) as (w1 & r1 & E1 & T1). destruct (Q2 h [11 / 10; 2] ltac:(lra) eq_refl) as (w2 & r2 & E2 & T2).
  exists w1, r1, w2, r2. repeat (split; [assumption|]). congruence.
Qed.
Lemma ij_tolerances m : In m implicit_runnable -> exists hs, 0 < hs /\ forall h, 0 < h <= hs -> exists w1 r1 w2 r2,
  @irk_odeint R RScalar choice_LA it_E unit 1 (it_F cos) 0 h [1; 2] (ij_opts (1 / 1000)) output_options_default m h (World tt []) = (w1, Ok r1) /\
  @irk_odeint R RScalar choice_LA it_E unit 1 (it_F cos) 0 h [1; 2] (ij_opts (1 / 1000000)) output_options_default m h (World tt []) = (w2, Ok r2) /\
  io_t_vals r1 = [0; h] /\ io_t_vals r2 = io_t_vals r1.
Proof.
  intros Hm. destruct (ij_one cos m (1 / 1000) ltac:(lra) it_cos Hm) as (h1 & P1 & Q1). destruct (ij_one cos m (1 / 1000000) ltac:(lra) it_cos Hm) as (h2 & P2 & Q2).
  exists (Rmin h1 h2). split; [apply Rmin_glb_lt; assumption|]. intros h Hh. pose proof (Rmin_l h1 h2). pose proof (Rmin_r h1 h2).
  destruct (Q1 h [1; 2] ltac:(lra) eq_refl) as (w1 & r1 & E1 & T1). destruct (Q2 h [1; 2] ltac:(lra) eq_refl) as (w2 & r2 & E2 & T2).
  exists w1, r1, w2, r2. repeat (split; [assumption|]). congruence.
Qed.
