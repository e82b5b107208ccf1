(** On a short enough interval irk::odeint needs one attempt; the starting integrator of the multistep solvers. *)
From Coq Require Import Reals Lra.
From Verif Require Import Model.Base Model.Scalar Model.LinAlg Model.Newton Model.Enums Model.Options Model.Coeffs Model.Irk Model.IrkCoeffs Model.Multistep.
From Verif Require Import Spec.Sums Spec.Trees Spec.RkSpec Spec.Observe Spec.ErkSpec Spec.NewtonSpec Spec.IrkSpec Spec.Methods Spec.IrkTotalSpec Spec.MultistepSpec.
From Verif Require Import Proofs.LoopProofs Proofs.SumsProofs Proofs.OrderProofs Proofs.TablesGeneric Proofs.ErkProofs Proofs.ErkReal Proofs.ErkTimes Proofs.NewtonProofs Proofs.NewtonTotal Proofs.RVec
  Proofs.IrkProofs Proofs.IrkReal Proofs.IrkStages Proofs.IrkRun Proofs.IrkGeneric Proofs.IrkResults Proofs.IrkSteps Proofs.IrkTimes Proofs.IrkExact Proofs.IrkTotal Proofs.IrkStart Proofs.IrkBounded Proofs.IrkSmall Proofs.IrkReturns Proofs.MultistepTotal.
Local Open Scope R_scope.

Section Short.
  Context {LA : LinAlg R} {HP : ExactProducts LA} {HX : ExactSolve LA} {HLU : ExactLU LA} {HI : ExactInverse LA} {HE : Env R} {St : Type}.
  Local Notation W := (world R St).

  Lemma solvable_le (F : functor R St) n sc h1 h2 : h1 <= h2 -> solvable_up_to F n sc h2 -> solvable_up_to F n sc h1.
  Proof.
    intros Hh [S1 S2]. split.
    - intros t y J h M HJ Hh' HM HW. exact (S1 t y J h M HJ ltac:(lra) HM HW).
    - intros t y J h HJ H1 H2 Hh'. exact (S2 t y J h HJ H1 H2 ltac:(lra)).
  Qed.

  Lemma irk_short (F : functor R St) f n opts oo m nopts sc B K hmax :
    ndebug = false -> In m implicit_runnable -> irk_get_coefficients m = Ok sc -> io_newton opts = Some nopts -> (2 <= o_maxit nopts < 2 ^ 30)%Z -> 0 < o_tol nopts -> o_refresh_jac nopts <> 0%Z ->
    io_adaptive opts = true -> 0 < io_abs_tol opts -> 0 <= io_rel_tol opts -> usable_output oo -> (0 < n)%nat ->
    returns_dim F n -> computes F f -> returns_jac F n -> jac_matrices F -> bounded_rhs F n B K -> 0 < hmax -> solvable_up_to F n sc hmax ->
    exists hs, 0 < hs /\ forall t0 t1 y0 dt fuel (w : W), length y0 = n -> 0 < t1 - t0 <= hs -> t1 - t0 <= dt -> (1 <= fuel)%nat ->
      exists w' sol, irk_odeint fuel F t0 t1 y0 opts oo m dt w = (w', Ok sol).
  Proof.
    intros Hdeb Hm Hg Hno Hmx Htol Hrf Had Hat Hrt Hoo Hn HF Hf HJ HJm HBK Hhm Hsol.
    destruct (start_run_R F 0 1 (vtab n (fun _ => 0)) opts oo m 1 nopts Hdeb Hm Hno ltac:(lra) ltac:(lra)) as (sc' & mo & dw & d2w & _ & Hst & _).
    assert (sc' = sc) by (pose proof (st_sc _ _ _ _ _ _ _ _ _ _ Hst); congruence). subst sc'.
    destruct (small_exists n opts sc nopts dw d2w 1 B K ltac:(lra) Hat Htol 1 ltac:(lra)) as (hs & Hhs & Hsmall).
    exists (Rmin hs hmax). split; [apply Rmin_glb_lt; lra|]. intros t0 t1 y0 dt fuel w Ly Hh Hdt Hfu.
    pose proof (Rmin_l hs hmax). pose proof (Rmin_r hs hmax).
    destruct (start_run_R F t0 t1 y0 opts oo m dt nopts Hdeb Hm Hno ltac:(lra) ltac:(lra)) as (sc' & mo' & dw' & d2w' & _ & Hst' & Hrun).
    assert (sc' = sc) by (pose proof (st_sc _ _ _ _ _ _ _ _ _ _ Hst'); congruence). subst sc'.
    assert (dw' = dw /\ d2w' = d2w) as [-> ->].
    { destruct (st_dw _ _ _ _ _ _ _ _ _ _ Hst) as (A1 & a1 & a2 & a3). destruct (st_dw _ _ _ _ _ _ _ _ _ _ Hst') as (A2 & b1 & b2 & b3). assert (A1 = A2) by congruence. subst A2. split; congruence. }
    rewrite Hrun. set (st := irk_init t0 y0 (length (sc_b sc)) nopts (clip t1 t0 dt)).
    assert (HG : good_state n t0 t1 nopts (t1 - t0) st) by (apply init_good; [exact Ly|lra|lra|lra]).
    assert (Ec : clip t1 (is_t st) (is_dt st) = t1 - t0). { unfold st. cbn [irk_init is_t is_dt]. rewrite !clip_R. rewrite (Rmin_right dt (t1 - t0)) by lra. apply Rmin_right. lra. }
    assert (Hsol' : solvable_up_to F n sc (t1 - t0)) by (apply (solvable_le F n sc _ hmax); [lra|exact Hsol]).
    assert (HO : no_overflow nopts st). { unfold no_overflow, st. cbn [irk_init is_maxit]. repeat split; lia. }
    assert (El : limit_hit opts st = false). { unfold limit_hit, st. cbn [irk_init is_step]. destruct (0 <=? io_max_steps opts)%Z eqn:E; [|reflexivity]. apply Z.leb_le in E. apply andb_false_iff. right. apply Z.ltb_ge. exact E. }
    destruct (small_accepted Hdeb F f n t0 t1 opts oo m dt sc nopts mo' dw d2w (t1 - t0) Hst' Hn HF HJ HJm Hf Hsol' Hoo Had Hrf (fun _ => True) 1 B K ltac:(lra) (bounded_everywhere F n B K HBK) ltac:(lia) Hat Hrt 1 ltac:(lra) st w HG I ltac:(cbn; lra) El HO ltac:(lra))
      as (w' & st' & E & Et & _). { apply Hsmall. rewrite Ec. lra. }
    destruct fuel as [|fuel]; [lia|].
    assert (Ew : while (fun s => is_t s <?. t1)%sc (irk_body F t1 opts sc oo nopts mo' dw d2w) (S fuel) st w = (w', Ok (inl st'))).
    { cbn [while]. change (sltb (Scalar := RScalar)) with Rltb. assert (E1 : Rltb (is_t st) t1 = true) by (unfold Rltb; destruct (Rlt_dec (is_t st) t1) as [|N]; [reflexivity|exfalso; apply N; cbn; lra]). rewrite E1.
      rewrite (bind_run _ _ _ _ _ E). assert (E2 : Rltb (is_t st') t1 = false). { unfold Rltb. destruct (Rlt_dec (is_t st') t1) as [N|]; [|reflexivity]. exfalso. rewrite Et, Ec in N. cbn in N. lra. }
      destruct fuel as [|fuel]; cbn [while]; change (sltb (Scalar := RScalar)) with Rltb; rewrite E2; reflexivity. }
    rewrite (bind_run _ _ _ _ _ Ew). do 2 eexists. reflexivity.
  Qed.

  Lemma starter_short (F : functor R St) f n sc B K hmax :
    ndebug = false -> irk_get_coefficients LOBATTO_IIIC_85 = Ok sc -> (0 < n)%nat ->
    returns_dim F n -> computes F f -> returns_jac F n -> jac_matrices F -> bounded_rhs F n B K -> 0 < hmax -> solvable_up_to F n sc hmax ->
    exists hs, 0 < hs /\ forall h y0, 0 < h <= hs -> length y0 = n -> starter_returns F h y0.
  Proof.
    intros Hdeb Hg Hn HF Hf HJ HJm HBK Hhm Hsol.
    destruct (irk_short F f n bootstrap_options bootstrap_output LOBATTO_IIIC_85 options_default sc B K hmax Hdeb) as (hs & Hhs & Hr); try assumption.
    - unfold implicit_runnable. cbn. tauto.
    - reflexivity.
    - cbn. lia.
    - unfold options_default, slit. cbn. unfold Rlit, Z.pow_pos. simpl. lra.
    - cbn. lia.
    - reflexivity.
    - unfold bootstrap_options, slit. cbn. unfold Rlit, Z.pow_pos. simpl. lra.
    - unfold bootstrap_options, slit. cbn. unfold Rlit, Z.pow_pos. simpl. lra.
    - split; [cbn; lia|cbn; discriminate].
    - exists (Rmin hs (1 / 1000000)). split; [apply Rmin_glb_lt; lra|]. intros h y0 Hh Ly t w. pose proof (Rmin_l hs (1 / 1000000)). pose proof (Rmin_r hs (1 / 1000000)).
      exists 1%nat. apply Hr; [exact Ly| | |lia]; change (t +. h)%sc with (t + h); [lra|]. unfold slit. cbn. unfold Rlit, Z.pow_pos. simpl. lra.
  Qed.

  Lemma irk_never_fails (F : functor R St) t0 t1 y0 opts oo m dt nopts sc hm bound fuel (w : W) :
    ndebug = false -> In m implicit_runnable -> irk_get_coefficients m = Ok sc -> io_adaptive opts = true -> io_newton opts = Some nopts -> (0 <= o_maxit nopts)%Z -> o_refresh_jac nopts <> 0%Z ->
    usable_output oo -> 0 < dt -> t0 < t1 -> (0 < length y0)%nat -> returns_dim F (length y0) -> returns_jac F (length y0) -> solvable_up_to F (length y0) sc hm -> (t1 - t0 <= hm \/ dt <= hm /\ 0 < io_max_dt opts <= hm) ->
    (o_maxit nopts * (16 + bound) < 2 ^ 34)%Z -> (0 <= io_max_steps opts <= bound \/ Z.of_nat fuel <= bound + 1)%Z ->
    exists w' r, irk_odeint fuel F t0 t1 y0 opts oo m dt w = (w', r) /\ (r = Err EFuel \/ exists sol, r = Ok sol).
  Proof.
    intros Hdeb Hm Hg Had Hno Hmx Hrf Hoo Hdt Ht Hn HF HJ Hsol Hcd HB Hf.
    destruct (irk_progress F t0 t1 y0 opts oo m dt nopts sc hm bound fuel w Hdeb Hm Hg Hno Hmx Hrf Had Hoo Hdt Ht Hn HF HJ Hsol Hcd HB Hf) as [(w' & sol & E)|(w' & E)]; exists w'; eexists; (split; [exact E|]); eauto.
  Qed.

  Lemma multistep_short (F : functor R St) f n sc B K hmax :
    ndebug = false -> irk_get_coefficients LOBATTO_IIIC_85 = Ok sc -> (0 < n)%nat ->
    returns_dim F n -> computes F f -> returns_jac F n -> jac_matrices F -> bounded_rhs F n B K -> 0 < hmax -> solvable_up_to F n sc hmax ->
    exists hs, 0 < hs /\ forall t0 t1 dt y0 order (w : W), length y0 = n -> t0 < t1 -> 0 < dt <= hs ->
      ((1 <= order <= 5)%Z -> exists fuel w' sol, adams_bashforth fuel F t0 t1 y0 order dt w = (w', Ok sol)) /\
      ((1 <= order <= 6)%Z -> exists fuel w' sol, bdf fuel F t0 t1 y0 order dt w = (w', Ok sol)).
  Proof.
    intros Hdeb Hg Hn HF Hf HJ HJm HBK Hhm Hsol. destruct (starter_short F f n sc B K hmax Hdeb Hg Hn HF Hf HJ HJm HBK Hhm Hsol) as (hs & Hhs & Hs).
    exists hs. split; [exact Hhs|]. intros t0 t1 dt y0 order w Ly Ht Hdt.
    assert (Hst : starter_returns F (Rmin dt (t1 - t0)) y0). { apply Hs; [|exact Ly]. pose proof (Rmin_l dt (t1 - t0)). split; [apply Rmin_glb_lt; lra|lra]. }
    rewrite <- Ly in HF. split; intros Ho.
    - apply ab_halts; try assumption; [lra|right; exact Hst].
    - apply bdf_halts; try assumption; [lra|]. intros t y s Ly'. destruct (HJ t y s ltac:(congruence)) as (s' & J & E & J1 & J2 & _). exists s', J. split; [exact E|]. split; congruence.
  Qed.
End Short.
