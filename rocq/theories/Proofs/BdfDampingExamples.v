(** Concrete problems beside C138. *)
From Coq Require Import QArith Qreals Qabs Reals Lra.
From Verif Require Import Model.Base Model.Scalar Model.LinAlg Model.Newton Model.Enums Model.Options Model.Coeffs Model.Irk Model.IrkCoeffs Model.Multistep.
From Verif Require Import Spec.Sums Spec.Trees Spec.RkSpec Spec.Observe Spec.NewtonSpec Spec.IrkSpec Spec.IrkTotalSpec Spec.Methods Spec.MultistepSpec Spec.BdfLinearSpec Spec.AbStabilitySpec.
From Verif Require Import Proofs.LoopProofs Proofs.ErkProofs Proofs.ErkReal Proofs.ErkTimes Proofs.NewtonProofs Proofs.NewtonTotal Proofs.IrkProofs Proofs.IrkReal Proofs.IrkStages Proofs.IrkGeneric Proofs.IrkResults Proofs.IrkSteps Proofs.IrkExact Proofs.IrkShort Proofs.SumsProofs Proofs.QuadField Proofs.OrderProofs Proofs.CoeffsProofs Proofs.IrkCoeffsProofs Proofs.TablesGeneric Proofs.RVec Proofs.ExactInstance Proofs.IrkRun Proofs.IrkTimes Proofs.IrkTotal Proofs.IrkStart Proofs.IrkBounded Proofs.IrkSmall Proofs.IrkReturns Proofs.MultistepTotal Proofs.Convergence Proofs.ConvergenceIrk Proofs.Neumann Proofs.ChoiceInstance Proofs.ChoiceLU Proofs.IrkTotalExamples Proofs.BdfLinear Proofs.BdfLinearExamples.
Local Open Scope R_scope.

(** the coefficients of the starter *)
Definition dd_abs (x : qs) : Q := (Qabs (q0 x) + Qabs (q1 x) * 5)%Q.
Lemma dd_toR x : Rabs (toR 21 x) <= Q2R (dd_abs x).
Proof.
  assert (A : forall q, Rabs (Q2R q) = Q2R (Qabs q)).
  { intros q. destruct (Qlt_le_dec q 0) as [H|H].
    - assert (E : (Qabs q == - q)%Q) by (apply Qabs_neg, Qlt_le_weak, H). rewrite (Qeq_eqR _ _ E), Q2R_opp. apply Rabs_left1. apply Qlt_le_weak, Qle_Rle in H. unfold Q2R in H at 2. simpl in H. lra.
    - assert (E : (Qabs q == q)%Q) by (apply Qabs_pos, H). rewrite (Qeq_eqR _ _ E). apply Rabs_pos_eq. apply Qle_Rle in H. unfold Q2R in H at 1. simpl in H. lra. }
  unfold toR, dd_abs. rewrite Q2R_plus, Q2R_mult. eapply Rle_trans; [apply Rabs_triang|]. rewrite Rabs_mult, !A. apply Rplus_le_compat_l.
  apply Rmult_le_compat_l; [rewrite <- A; apply Rabs_pos|]. rewrite Rabs_pos_eq by apply sqrt_pos.
  replace (Q2R 5) with 5 by (unfold Q2R; simpl; field). apply Rle_trans with (sqrt (5 * 5)); [apply sqrt_le_1_alt; lra|]. rewrite sqrt_square; lra.
Qed.
Lemma dd_sum : Rsum 5 (fun i => Rsum 5 (fun j => Q2R (dd_abs (nth j (nth i (rows_of (sc_A q_c85)) []) qs0)))) <= 21 / 5.
Proof.
  cbn [Rsum]. rewrite ?Rplus_0_l. rewrite <- !Q2R_plus. replace (21 / 5) with (Q2R (21 # 5)) by (unfold Q2R; simpl; field).
  replace 0 with (Q2R 0) by (unfold Q2R; simpl; field). rewrite <- ?Q2R_plus. apply Qle_Rle. vm_compute. discriminate.
Qed.
Lemma dd_table {E : Env R} sc : irk_get_coefficients LOBATTO_IIIC_85 = Ok sc -> length (sc_b sc) = 5%nat /\ Rsum 5 (fun i => Rsum 5 (fun j => Rabs (mfun (sc_A sc) i j))) <= 21 / 5 /\ Rabs (sc_gamma sc) <= 1.
Proof.
  intros H. destruct (irk_get_ok (T := R) LOBATTO_IIIC_85) as (sc' & H1 & H2 & _). assert (sc' = sc) by congruence. subst sc'.
  destruct match_c85 as (r & H3 & Hm). assert (r = sc) by congruence. subst r.
  split; [rewrite (m_b _ _ _ Hm); rewrite map_length; reflexivity|]. split.
  - eapply Rle_trans; [|exact dd_sum]. apply Rsum_le. intros i Hi. apply Rsum_le. intros j Hj. unfold mfun.
    rewrite (tab_a 21 q_c85 sc 5 Hm eq_refl i j Hi Hj). apply dd_toR.
  - rewrite (m_gamma _ _ _ Hm). eapply Rle_trans; [apply dd_toR|]. replace 1 with (Q2R 1) by (unfold Q2R; simpl; field). apply Qle_Rle. vm_compute. discriminate.
Qed.

(** y' = - y / (10 h) with the step size h, from 1e-7 *)
Definition dd_A (h : R) (t : R) (p q : nat) : R := - (/ (10 * h)).
Definition dd_F (h : R) : functor R unit := la_F 1 (dd_A h) (fun _ _ => 0).
Definition dd_y : list R := [1 / 10000000].
Lemma dd_K h : 0 < h -> 0 < / (10 * h) /\ h * / (10 * h) = 1 / 10.
Proof. intros Hh. split; [apply Rinv_0_lt_compat; lra|field; lra]. Qed.
Lemma dd_decaying h : decaying_component 1 0 (/ (10 * h)) (affine_rhs 1 (dd_A h) (fun _ _ => 0)).
Proof. split; [lia|]. intros t y Ly. unfold affine_rhs. rewrite ventry_vt by lia. cbn [Rsum]. unfold dd_A. ring. Qed.
Lemma dd_jac h t y J p q : 0 < h -> jac_answers (dd_F h) t y J -> (p < 1)%nat -> (q < 1)%nat -> Rabs (mentry J p q) <= / (10 * h).
Proof. intros Hh Ha Hp Hq. rewrite (la_jac _ _ _ _ _ _ Ha), mentry_vt by assumption. unfold dd_A. rewrite Rabs_Ropp, Rabs_pos_eq; [lra|]. apply Rlt_le, (dd_K h Hh). Qed.
Lemma dd_solvable h sc : 0 < h -> irk_get_coefficients (H0 := it_E) LOBATTO_IIIC_85 = Ok sc -> solvable_up_to (dd_F h) 1 sc h.
Proof.
  intros Hh Hg. destruct (dd_table (E := it_E) sc Hg) as (Ls & Ha & Hga). destruct (dd_K h Hh) as [K0 K1]. set (K := / (10 * h)) in * .
  split.
  - intros t y J x M Hj Hx HM _. apply (stage_matrix_invertible 1 (length (sc_b sc)) (mfun (sc_A sc)) x J M K); try assumption; [lra|lra|intros; eapply dd_jac; eassumption|].
    intros i Hi. assert (Hr : Rsum (length (sc_b sc)) (fun j => Rabs (mfun (sc_A sc) i j)) <= 21 / 5) by (eapply Rle_trans; [apply (al_rows sc i Hi)|rewrite Ls; exact Ha]).
    assert (P : 0 <= Rsum (length (sc_b sc)) (fun j => Rabs (mfun (sc_A sc) i j))) by apply Rsum_abs_nonneg.
    set (a := Rsum _ _) in * . cbn [INR]. assert (x * K <= h * K) by (apply Rmult_le_compat_r; lra). assert (0 <= x * K) by (apply Rmult_le_pos; lra). nra.
  - intros t y J x Hj _ _ Hx. apply (one_minus_invertible 1 _ J K); [intros; eapply dd_jac; eassumption|lra|].
    rewrite Rabs_mult, (Rabs_pos_eq x) by lra. cbn [INR]. pose proof (Rabs_pos (sc_gamma sc)). assert (x * K <= h * K) by (apply Rmult_le_compat_r; lra). assert (0 <= x * K) by (apply Rmult_le_pos; lra). nra.
Qed.
Lemma dd_near h : 0 < h -> bounded_near (dd_F h) 1 (fun y => y = dd_y) (1 / 1000000) (/ (10 * h) * (11 / 10000000)) (/ (10 * h)).
Proof.
  intros Hh. destruct (dd_K h Hh) as [K0 K1]. split.
  - intros t y x s s' v p Ly HV Lx Hxy Hv Hp. injection Hv as _ <-. unfold affine_rhs. rewrite ventry_vt by exact Hp. cbn [Rsum]. unfold dd_A.
    specialize (Hxy 0%nat ltac:(lia)). rewrite HV in Hxy. replace (ventry dd_y 0) with (1 / 10000000) in Hxy by reflexivity. apply Rabs_def2' in Hxy || apply Rcomplements.Rabs_le_between in Hxy.
    rewrite Rplus_0_l, Rplus_0_r, Rabs_mult, Rabs_Ropp, (Rabs_pos_eq (/ (10 * h))) by lra. apply Rmult_le_compat_l; [lra|]. apply Rabs_le. lra.
  - intros t y J p q _ _ Ha Hp Hq. eapply dd_jac; eassumption.
Qed.
Lemma dd_starter : exists h0, 0 < h0 /\ forall h, 0 < h <= h0 -> @starter_returns R RScalar choice_LA it_E unit (dd_F h) h dd_y.
Proof.
  assert (Hm : In LOBATTO_IIIC_85 implicit_runnable) by (unfold implicit_runnable; cbn; tauto).
  destruct (start_run_R (LA := choice_LA) (HE := it_E) (dd_F 1) 0 1 dd_y bootstrap_options bootstrap_output LOBATTO_IIIC_85 1 options_default eq_refl Hm eq_refl ltac:(lra) ltac:(lra)) as (sc & mo & dw & d2w & _ & Hst & _).
  pose proof (st_sc _ _ _ _ _ _ _ _ _ _ Hst) as Hg. destruct (dd_table (E := it_E) sc Hg) as (Ls & Ha & Hga).
  set (We := Rsum 5 (fun i => Rabs (ventry dw i)) + Rsum 5 (fun i => Rabs (ventry d2w i))).
  assert (HW : 0 <= We) by (unfold We; pose proof (Rsum_abs_nonneg 5 (ventry dw)); pose proof (Rsum_abs_nonneg 5 (ventry d2w)); lra).
  set (C := 1 + We * 10).
  exists (1 / 10000 / (1000000 * C)). assert (HC : 1 <= C) by (unfold C; lra). split; [apply Rdiv_lt_0_compat; lra|]. intros h Hh.
  assert (HhC : h * C <= / 10000000000).
  { apply Rle_trans with (1 / 10000 / (1000000 * C) * C); [apply Rmult_le_compat_r; lra|]. right. field. lra. }
  assert (Hh6 : h <= / 10000000000) by nra.
  intros t w. change (t +. h)%sc with (t + h). exists 1%nat.
  assert (Hdt : slit (T := R) 1 (-6) = / 1000000) by (unfold slit; cbn; unfold Rlit, Z.pow_pos; simpl; lra).
  rewrite Hdt. destruct (start_run_R (LA := choice_LA) (HE := it_E) (dd_F h) t (t + h) dd_y bootstrap_options bootstrap_output LOBATTO_IIIC_85 (/ 1000000) options_default eq_refl Hm eq_refl ltac:(lra) ltac:(lra)) as (sc' & mo' & dw' & d2w' & _ & Hst' & Hrun).
  assert (sc' = sc) by (pose proof (st_sc _ _ _ _ _ _ _ _ _ _ Hst'); congruence). subst sc'.
  assert (dw' = dw /\ d2w' = d2w) as [-> ->].
  { destruct (st_dw _ _ _ _ _ _ _ _ _ _ Hst) as (A1 & a1 & a2 & a3). destruct (st_dw _ _ _ _ _ _ _ _ _ _ Hst') as (A2 & b1 & b2 & b3). assert (A1 = A2) by congruence. subst A2. split; congruence. }
  rewrite Hrun. set (st := irk_init t dd_y (length (sc_b sc)) options_default (clip (t + h) t (/ 1000000))).
  assert (Htol : o_tol (T := R) options_default = / 10000) by (unfold options_default, slit; cbn; unfold Rlit, Z.pow_pos; simpl; lra).
  assert (Hat : io_abs_tol (T := R) bootstrap_options = / 1000000000) by (unfold bootstrap_options, slit; cbn; unfold Rlit, Z.pow_pos; simpl; lra).
  assert (Hrt : io_rel_tol (T := R) bootstrap_options = / 10000000000) by (unfold bootstrap_options, slit; cbn; unfold Rlit, Z.pow_pos; simpl; lra).
  assert (HG : good_state 1 t (t + h) options_default (t + h - t) st) by (apply init_good; [reflexivity|lra|lra|lra]).
  assert (Ec : clip (t + h) (is_t st) (is_dt st) = h). { unfold st. cbn [irk_init is_t is_dt]. rewrite !clip_R. rewrite (Rmin_right (/ 1000000)) by lra. rewrite Rmin_right; lra. }
  assert (HO : no_overflow options_default st). { unfold no_overflow, st. cbn [irk_init is_maxit]. repeat split; cbn; lia. }
  assert (El : limit_hit bootstrap_options st = false). { unfold limit_hit, st. cbn [irk_init is_step]. destruct (0 <=? io_max_steps bootstrap_options)%Z eqn:E; [|reflexivity]. apply Z.leb_le in E. apply andb_false_iff. right. apply Z.ltb_ge. exact E. }
  destruct (dd_K h (proj1 Hh)) as [K0 K1].
  assert (Hsol' : solvable_up_to (dd_F h) 1 sc (t + h - t)) by (replace (t + h - t) with h by ring; apply dd_solvable; [lra|exact Hg]).
  destruct (small_accepted (LA := choice_LA) (HE := it_E) eq_refl (dd_F h) (affine_rhs 1 (dd_A h) (fun _ _ => 0)) 1 t (t + h) bootstrap_options bootstrap_output LOBATTO_IIIC_85 (/ 1000000) sc options_default mo' dw d2w (t + h - t) Hst' ltac:(lia))
    with (P := fun y => y = dd_y) (rho := 1 / 1000000) (B := / (10 * h) * (11 / 10000000)) (K := / (10 * h)) (eps := 1) (st := st) (w := w) as (w' & st' & E & Et & _).
  - intros t' y s _. exists s, (affine_rhs 1 (dd_A h) (fun _ _ => 0) t' y). split; [reflexivity|apply vtab_length].
  - intros t' y s _. exists s, (mtab 1 1 (dd_A h t')). split; [reflexivity|]. split; [apply mtab_nrows|]. split; [apply mtab_ncols; lia|apply mtab_wf].
  - intros t' y J Hj. rewrite (la_jac _ _ _ _ _ _ Hj). apply mtab_wf.
  - apply (la_problem 1 (dd_A h) (fun _ _ => 0)). lia.
  - exact Hsol'.
  - split; [cbn; lia|cbn; discriminate].
  - reflexivity.
  - cbn. lia.
  - lra.
  - apply dd_near. lra.
  - cbn. lia.
  - lra.
  - lra.
  - lra.
  - exact HG.
  - reflexivity.
  - cbn [st irk_init is_t]. lra.
  - exact El.
  - exact HO.
  - lra.
  - rewrite Ec. unfold small_step. rewrite Htol, Hat, Ls in * . cbn [Nat.mul Nat.add INR]. fold We.
    set (al := Rsum 5 _) in * . set (ga := Rabs (sc_gamma sc)) in * . assert (A0 : 0 <= al) by (apply Rsum_nonneg; intros; apply Rsum_abs_nonneg). assert (G0 : 0 <= ga) by apply Rabs_pos.
    set (K := / (10 * h)) in * . set (v := 11 / 10000000) in * .
    assert (Q1 : h * al * K = al / 10) by (replace (h * al * K) with (al * (h * K)) by ring; rewrite K1; field).
    assert (Q2 : h * al * (K * v) = al / 10 * v) by (rewrite <- Q1; ring).
    assert (Q3 : ga * h * (K * v) = ga / 10 * v) by (replace (ga * h * (K * v)) with (ga * (h * K) * v) by ring; rewrite K1; field).
    assert (Q4 : h * (2 * (ga / 10 * v + We * (2 * (al / 10 * v)))) <= / 1000000000).
    { replace (h * (2 * (ga / 10 * v + We * (2 * (al / 10 * v))))) with (v * (h * (2 * (ga / 10) + We * (4 * (al / 10))))) by ring.
      assert (X : h * (2 * (ga / 10) + We * (4 * (al / 10))) <= h * C). { apply Rmult_le_compat_l; [lra|]. unfold C. assert (We * (4 * (al / 10)) <= We * 10) by (apply Rmult_le_compat_l; lra). lra. }
      assert (0 <= h * (2 * (ga / 10) + We * (4 * (al / 10)))). { apply Rmult_le_pos; [lra|]. assert (0 <= We * (4 * (al / 10))) by (apply Rmult_le_pos; lra). lra. }
      unfold v. lra. }
    rewrite !Rmult_1_l, Q1, Q2, Q3. 
    assert (Q5 : 0 <= al / 10 * v <= 42 / 100 * v) by (unfold v; lra).
    repeat split.
    + lra.
    + set (z := al / 10 * v) in * . assert (z * z <= (42 / 100 * v) * (42 / 100 * v)) by (apply Rmult_le_compat; lra). unfold v in * . lra.
    + replace (ga * h * K) with (ga * (h * K)) by ring. rewrite K1. lra.
    + exact Q4.
    + unfold v in * . lra.
    + eapply Rle_trans; [exact Q4|]. lra.
  - assert (Ew : while (fun s => is_t s <?. (t + h))%sc (@irk_body R RScalar choice_LA it_E unit (dd_F h) (t + h) bootstrap_options sc bootstrap_output options_default mo' dw d2w) 1 st w = (w', Ok (inl st'))).
    { cbn [while]. change (sltb (Scalar := RScalar)) with Rltb. assert (E1 : Rltb (is_t st) (t + h) = true) by (unfold Rltb; destruct (Rlt_dec (is_t st) (t + h)) as [|N]; [reflexivity|exfalso; apply N; cbn; lra]). rewrite E1.
      rewrite (bind_run _ _ _ _ _ E). assert (E2 : Rltb (is_t st') (t + h) = false). { unfold Rltb. destruct (Rlt_dec (is_t st') (t + h)) as [N|]; [|reflexivity]. exfalso. rewrite Et, Ec in N. cbn in N. lra. }
      rewrite E2. reflexivity. }
    rewrite (bind_run _ _ _ _ _ Ew). do 2 eexists. reflexivity.
Qed.
Lemma dd_runs : exists h0, 0 < h0 /\ forall h, 0 < h <= h0 ->
  affine_problem (dd_F h) 1 (dd_A h) (fun _ _ => 0) /\ decaying_component 1 0 (/ (10 * h)) (affine_rhs 1 (dd_A h) (fun _ _ => 0)) /\
  (forall c, 0 <= c -> bdf_solvable 1 c (dd_A h)) /\ / (10 * h) * Rmin h (1 - 0) = 1 / 10 /\
  forall k, (1 <= k <= 6)%nat -> exists fuel w sol, la_bdf 1 (dd_A h) (fun _ _ => 0) fuel 0 1 h dd_y (Z.of_nat k) = (w, Ok sol).
Proof.
  destruct dd_starter as (h0 & P0 & H). exists (Rmin h0 1). split; [apply Rmin_glb_lt; lra|]. intros h Hh. pose proof (Rmin_l h0 1). pose proof (Rmin_r h0 1). destruct (dd_K h (proj1 Hh)) as [K0 K1].
  split; [apply la_problem; lia|]. split; [apply dd_decaying|]. split.
  { intros c Hc. apply (damped_solvable 1 (/ (10 * h))); [lra|exact Hc|]. intros t x. cbn [Rsum]. unfold dd_A. lra. }
  split; [rewrite Rmin_left by lra; rewrite Rmult_comm; exact K1|]. intros k Hk.
  assert (Hs : @starter_returns R RScalar choice_LA it_E unit (dd_F h) (Rmin h (1 - 0)) dd_y) by (rewrite Rmin_left by lra; apply H; lra).
  apply (bdf_halts (LA := choice_LA) (HE := it_E) (dd_F h)); try lra; try exact Hs; try lia.
  - intros t y s _. exists s, (affine_rhs 1 (dd_A h) (fun _ _ => 0) t y). split; [reflexivity|apply vtab_length].
  - intros t y s _. exists s, (mtab 1 1 (dd_A h t)). split; [reflexivity|]. split; [apply mtab_nrows|apply mtab_ncols; lia].
Qed.
