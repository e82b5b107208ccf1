(** irk::odeint returns: progress (nothing but running out of fuel can go wrong) and termination. *)
From Coq Require Import Reals Lra.
From Verif Require Import Model.Base Model.Scalar Model.LinAlg Model.Newton Model.Enums Model.Options Model.Coeffs Model.Irk Model.IrkCoeffs.
From Verif Require Import Spec.Sums Spec.Trees Spec.RkSpec Spec.Observe Spec.ErkSpec Spec.NewtonSpec Spec.IrkSpec Spec.Methods Spec.IrkTotalSpec.
From Verif Require Import Proofs.LoopProofs Proofs.SumsProofs Proofs.OrderProofs Proofs.TablesGeneric Proofs.ErkProofs Proofs.ErkReal Proofs.ErkTimes Proofs.NewtonProofs Proofs.NewtonTotal Proofs.RVec
  Proofs.IrkProofs Proofs.IrkReal Proofs.IrkStages Proofs.IrkRun Proofs.IrkGeneric Proofs.IrkResults Proofs.IrkSteps Proofs.IrkTimes Proofs.IrkExact Proofs.IrkTotal Proofs.IrkStart Proofs.IrkBounded Proofs.IrkSmall.
Local Open Scope R_scope.

Lemma bound_pow D hs : 0 < hs -> exists k, D <= hs * (10 / 9) ^ k.
Proof.
  intros Hs. destruct (Pow_x_infinity (10 / 9) ltac:(rewrite Rabs_pos_eq; lra) (D / hs)) as (N & HN). exists N. specialize (HN N ltac:(lia)). rewrite Rabs_pos_eq in HN by (left; apply pow_lt; lra).
  apply Rge_le in HN. apply (Rmult_le_compat_l hs) in HN; [|lra]. replace (hs * (D / hs)) with D in HN by (field; lra). exact HN.
Qed.
(** the state in which the loop starts *)
Lemma init_good n t0 t1 y0 ns nopts dt hm : length y0 = n -> 0 < dt -> t0 < t1 -> t1 - t0 <= hm \/ dt <= hm -> good_state n t0 t1 nopts hm (irk_init t0 y0 ns nopts (clip t1 t0 dt)).
Proof.
  intros Ly Hdt Ht Hcp. assert (0 < clip t1 t0 dt) by (rewrite clip_R; apply Rmin_glb_lt; lra).
  split; [exact Ly|]. split.
  - unfold pos_state, irk_init. cbn [is_dt is_dts0 is_dts1 is_err0 is_t]. repeat split; try assumption; [|lra]. simpl. unfold Rlit, Z.pow_pos. simpl. lra.
  - split; [exists 0%Z; cbn [irk_init is_maxit is_relax is_step]; lia|]. destruct Hcp as [Hcp|Hcp]; [left; exact Hcp|right]. cbn [irk_init is_dt]. rewrite clip_R. eapply Rle_trans; [apply Rmin_l|exact Hcp].
Qed.

Section Returns.
  Context {LA : LinAlg R} {HP : ExactProducts LA} {HX : ExactSolve LA} {HLU : ExactLU LA} {HI : ExactInverse LA} {HE : Env R} {St : Type}.
  Local Notation W := (world R St).

  Lemma irk_progress (F : functor R St) t0 t1 y0 opts oo m dt nopts sc hm bound fuel (w : W) :
    ndebug = false -> In m implicit_runnable -> irk_get_coefficients m = Ok sc -> io_newton opts = Some nopts -> (0 <= o_maxit nopts)%Z -> o_refresh_jac nopts <> 0%Z -> io_adaptive opts = true ->
    usable_output oo -> 0 < dt -> t0 < t1 -> (0 < length y0)%nat -> returns_dim F (length y0) -> returns_jac F (length y0) -> solvable_up_to F (length y0) sc hm -> (t1 - t0 <= hm \/ dt <= hm /\ 0 < io_max_dt opts <= hm) ->
    (o_maxit nopts * (16 + bound) < 2 ^ 34)%Z -> (0 <= io_max_steps opts <= bound \/ Z.of_nat fuel <= bound + 1)%Z ->
    (exists w' sol, irk_odeint fuel F t0 t1 y0 opts oo m dt w = (w', Ok sol)) \/ exists w', irk_odeint fuel F t0 t1 y0 opts oo m dt w = (w', Err EFuel).
  Proof.
    intros Hdeb Hm Hg Hno Hmx Hrf Had Hoo Hdt Ht Hn HF HJ Hsol Hcd HB Hf. assert (Hc1 : t1 - t0 <= hm \/ 0 < io_max_dt opts <= hm) by tauto. assert (Hc2 : t1 - t0 <= hm \/ dt <= hm) by tauto.
    destruct (start_run_R F t0 t1 y0 opts oo m dt nopts Hdeb Hm Hno Hdt Ht) as (sc' & mo & dw & d2w & Htab & Hst & Hrun).
    assert (sc' = sc) by (pose proof (st_sc _ _ _ _ _ _ _ _ _ _ Hst); congruence). subst sc'. rewrite Hrun.
    destruct (loop_progress Hdeb F (length y0) t0 t1 opts oo m dt sc nopts mo dw d2w hm Hst Hn HF HJ Hsol Hc1 Hoo Had Hrf bound Hmx HB fuel _ w (init_good _ t0 t1 y0 (length (sc_b sc)) nopts dt hm eq_refl Hdt Ht Hc2)) as (w' & r & E & Hr).
    { destruct Hf as [Hf|Hf]; [left; exact Hf|right]. cbn [irk_init is_step]. lia. }
    unfold bind. rewrite E. destruct Hr as [->|(x & ->)]; [right; eauto|left; do 2 eexists; reflexivity].
  Qed.

  Section Loop.
    Hypothesis Hdeb : ndebug = false.
    Variables (F : functor R St) (f : R -> list R -> list R) (n : nat) (t0 t1 : R) (opts : irk_options R) (oo : output_options) (m : Z) (dt0 : R).
    Variables (sc : solver_coeffs R) (nopts : options R) (mo : Z) (dw d2w : list R) (hm : R).
    Hypothesis Hst : irk_started t0 t1 opts m dt0 sc nopts mo dw d2w.
    Hypothesis Hn : (0 < n)%nat.
    Hypothesis HF : returns_dim F n.
    Hypothesis HJ : returns_jac F n.
    Hypothesis HJm : jac_matrices F.
    Hypothesis Hf : computes F f.
    Hypothesis Hsol : solvable_up_to F n sc hm.
    Hypothesis Hcap : t1 - t0 <= hm \/ 0 < io_max_dt opts <= hm.
    Hypothesis Hoo : usable_output oo.
    Hypothesis Had : io_adaptive opts = true.
    Hypothesis Hrf : o_refresh_jac nopts <> 0%Z.
    Variables (P : list R -> Prop) (rho B K : R).
    Hypothesis Hrho : 0 < rho.
    Hypothesis HBK : bounded_near F n P rho B K.
    (** the region is not left *)
    Hypothesis HPstep : forall st (w w' : W) st', good_state n t0 t1 nopts hm st -> P (is_y st) -> is_t st < t1 -> irk_body F t1 opts sc oo nopts mo dw d2w st w = (w', Ok (inl st')) -> P (is_y st').
    Hypothesis Hmx : (2 <= o_maxit nopts)%Z.
    Hypothesis Hatol : 0 < io_abs_tol opts.
    Hypothesis Hrtol : 0 <= io_rel_tol opts.
    Hypothesis Htol : 0 < o_tol nopts.
    Hypothesis Hms : (0 <= io_max_steps opts)%Z.
    Hypothesis HB : (o_maxit nopts * (16 + io_max_steps opts) < 2 ^ 34)%Z.

    Lemma limit_run st (w : W) : limit_hit opts st = true -> exists o, irk_body F t1 opts sc oo nopts mo dw d2w st w = (w, Ok (inr o)).
    Proof. intros E. unfold irk_body. unfold limit_hit in E. rewrite E. eexists. reflexivity. Qed.
    Lemma clip_le st : clip t1 (is_t st) (is_dt st) <= is_dt st /\ (t0 <= is_t st -> clip t1 (is_t st) (is_dt st) <= t1 - t0).
    Proof. rewrite clip_R. pose proof (Rmin_l (is_dt st) (t1 - is_t st)). pose proof (Rmin_r (is_dt st) (t1 - is_t st)). split; [lra|]. intros. lra. Qed.

    Variables (hs : R) (km : nat).
    Hypothesis Hhs : 0 < hs.
    Hypothesis Hsmall : forall h, 0 < h <= hs -> small_step n opts sc nopts dw d2w rho B K 1 h.
    Hypothesis Hkm : t1 - t0 <= hs * (10 / 9) ^ km.
    Lemma loop_returns : forall fuel L k st (w : W), good_state n t0 t1 nopts hm st -> P (is_y st) -> (io_max_steps opts + 1 - is_step st <= Z.of_nat L)%Z -> clip t1 (is_t st) (is_dt st) <= hs * (10 / 9) ^ k ->
      (L * (km + 2) + k + 1 <= fuel)%nat ->
      exists w' x, while (fun st => is_t st <?. t1)%sc (irk_body F t1 opts sc oo nopts mo dw d2w) fuel st w = (w', Ok x).
    Proof.
      induction fuel as [|fuel IH]; intros L k st w HG HPy HL Hk Hfu; [lia|]. cbn [while]. change (sltb (Scalar := RScalar)) with Rltb. destruct (Rltb (is_t st) t1) eqn:Et; [|do 2 eexists; reflexivity].
      apply Rltb_true in Et. destruct (limit_hit opts st) eqn:El.
      { destruct (limit_run st w El) as (o & E). rewrite (bind_run _ _ _ _ _ E). do 2 eexists. reflexivity. }
      assert (Hstep : (is_step st <= io_max_steps opts)%Z). { unfold limit_hit in El. apply andb_false_iff in El. destruct El as [El|El]; [apply Z.leb_gt in El; lia|apply Z.ltb_ge in El; exact El]. }
      assert (HO : no_overflow nopts st) by (apply (relax_overflow n sc nopts Hn st (io_max_steps opts)); [apply HG|lia|exact Hstep|exact HB]).
      pose proof HG as (Ly & (P1 & P2 & P3 & P4 & P5) & Hrel & Hcp).
      destruct (body_total Hdeb F n t0 t1 opts oo m dt0 sc nopts mo dw d2w hm Hst Hn HF HJ Hsol Hoo Had Hrf st w Ly P1 ltac:(split; assumption) Hcp (fun _ => HO)) as (w' & x & E & _).
      rewrite (bind_run _ _ _ _ _ E). destruct x as [st'|o]; [|do 2 eexists; reflexivity].
      pose proof (good_step Hdeb F n t0 t1 opts oo m dt0 sc nopts mo dw d2w hm Hst Hn HF HJ Hsol Hcap Hoo Had Hrf st w w' st' HG Et (fun _ => HO) E) as HG'. pose proof (HPstep st w w' st' HG HPy Et E) as HPy'.
      assert (Hh : 0 < clip t1 (is_t st) (is_dt st)) by (rewrite clip_R; apply Rmin_glb_lt; lra).
      destruct (attempt_moves F n t0 t1 opts oo m dt0 sc nopts mo dw d2w hm Hst st w w' st' HG Et E) as [(M1 & M2)|(M1 & M2 & M3)].
      - destruct L as [|L]; [exfalso; lia|]. apply (IH L km); [exact HG'|exact HPy'|lia| |lia].
        eapply Rle_trans; [|exact Hkm]. apply clip_le. apply HG'.
      - destruct k as [|k].
        + exfalso. destruct (small_accepted Hdeb F f n t0 t1 opts oo m dt0 sc nopts mo dw d2w hm Hst Hn HF HJ HJm Hf Hsol Hoo Had Hrf P rho B K Hrho HBK Hmx Hatol Hrtol 1 ltac:(lra) st w HG HPy Et El HO ltac:(lra)) as (w2 & st2 & E2 & _ & S2 & _).
          { apply Hsmall. split; [exact Hh|]. simpl in Hk. lra. }
          rewrite E in E2. injection E2 as _ <-. lia.
        + apply (IH L k); [exact HG'|exact HPy'|lia| |lia]. eapply Rle_trans; [apply (proj1 (clip_le st'))|]. simpl in Hk. lra.
    Qed.
  End Loop.

  Lemma irk_returns_near (F : functor R St) f t0 t1 y0 opts oo m dt nopts sc hm (P : list R -> Prop) rho B K :
    ndebug = false -> In m implicit_runnable -> irk_get_coefficients m = Ok sc -> io_newton opts = Some nopts -> (2 <= o_maxit nopts)%Z -> 0 < o_tol nopts -> o_refresh_jac nopts <> 0%Z ->
    io_adaptive opts = true -> 0 < io_abs_tol opts -> 0 <= io_rel_tol opts -> usable_output oo -> 0 < dt -> t0 < t1 -> (0 < length y0)%nat ->
    returns_dim F (length y0) -> computes F f -> returns_jac F (length y0) -> jac_matrices F -> 0 < rho -> bounded_near F (length y0) P rho B K ->
    P y0 -> (forall mo dw d2w, irk_started t0 t1 opts m dt sc nopts mo dw d2w -> forall st (w w' : W) st', good_state (length y0) t0 t1 nopts hm st -> P (is_y st) -> is_t st < t1 ->
      irk_body F t1 opts sc oo nopts mo dw d2w st w = (w', Ok (inl st')) -> P (is_y st')) -> solvable_up_to F (length y0) sc hm -> (t1 - t0 <= hm \/ dt <= hm /\ 0 < io_max_dt opts <= hm) ->
    (0 <= io_max_steps opts)%Z -> (o_maxit nopts * (16 + io_max_steps opts) < 2 ^ 34)%Z ->
    exists fuel0, forall fuel (w : W), (fuel0 <= fuel)%nat -> exists w' sol, irk_odeint fuel F t0 t1 y0 opts oo m dt w = (w', Ok sol).
  Proof.
    intros Hdeb Hm Hg Hno Hmx Htol Hrf Had Hat Hrt Hoo Hdt Ht Hn HF Hf HJ HJm Hrho HBK HP0 HPs Hsol Hcd Hms HB. assert (Hc1 : t1 - t0 <= hm \/ 0 < io_max_dt opts <= hm) by tauto. assert (Hc2 : t1 - t0 <= hm \/ dt <= hm) by tauto.
    destruct (start_run_R F t0 t1 y0 opts oo m dt nopts Hdeb Hm Hno Hdt Ht) as (sc' & mo & dw & d2w & Htab & Hst & Hrun).
    assert (sc' = sc) by (pose proof (st_sc _ _ _ _ _ _ _ _ _ _ Hst); congruence). subst sc'.
    destruct (small_exists (length y0) opts sc nopts dw d2w rho B K Hrho Hat Htol 1 ltac:(lra)) as (hs & Hhs & Hsmall). destruct (bound_pow (t1 - t0) hs Hhs) as (km & Hkm).
    set (L := Z.to_nat (io_max_steps opts + 1)). exists (L * (km + 2) + km + 1)%nat. intros fuel w Hfu. rewrite Hrun.
    destruct (loop_returns Hdeb F f (length y0) t0 t1 opts oo m dt sc nopts mo dw d2w hm Hst Hn HF HJ HJm Hf Hsol Hc1 Hoo Had Hrf P rho B K Hrho HBK (HPs mo dw d2w Hst) Hmx Hat Hrt Hms HB hs km Hsmall Hkm fuel L km
      (irk_init t0 y0 (length (sc_b sc)) nopts (clip t1 t0 dt)) w) as (w' & x & E).
    - apply init_good; [reflexivity|assumption..].
    - exact HP0.
    - cbn [irk_init is_step]. unfold L. lia.
    - eapply Rle_trans; [|exact Hkm]. cbn [irk_init is_t is_dt]. rewrite !clip_R. eapply Rle_trans; [apply Rmin_r|lra].
    - exact Hfu.
    - unfold bind. rewrite E. do 2 eexists. reflexivity.
  Qed.

  Lemma bounded_everywhere (F : functor R St) n B K : bounded_rhs F n B K -> bounded_near F n (fun _ => True) 1 B K.
  Proof. intros [H1 H2]. split; [intros t y x s s' v p _ _ Lx _ E Hp; exact (H1 t x s s' v p Lx E Hp)|]. intros t y J p q Ly _ Ha Hp Hq. exact (H2 t y J p q Ly Ha Hp Hq). Qed.
  Lemma irk_returns (F : functor R St) f t0 t1 y0 opts oo m dt nopts sc hm B K :
    ndebug = false -> In m implicit_runnable -> irk_get_coefficients m = Ok sc -> io_newton opts = Some nopts -> (2 <= o_maxit nopts)%Z -> 0 < o_tol nopts -> o_refresh_jac nopts <> 0%Z ->
    io_adaptive opts = true -> 0 < io_abs_tol opts -> 0 <= io_rel_tol opts -> usable_output oo -> 0 < dt -> t0 < t1 -> (0 < length y0)%nat ->
    returns_dim F (length y0) -> computes F f -> returns_jac F (length y0) -> jac_matrices F -> bounded_rhs F (length y0) B K -> solvable_up_to F (length y0) sc hm -> (t1 - t0 <= hm \/ dt <= hm /\ 0 < io_max_dt opts <= hm) ->
    (0 <= io_max_steps opts)%Z -> (o_maxit nopts * (16 + io_max_steps opts) < 2 ^ 34)%Z ->
    exists fuel0, forall fuel (w : W), (fuel0 <= fuel)%nat -> exists w' sol, irk_odeint fuel F t0 t1 y0 opts oo m dt w = (w', Ok sol).
  Proof.
    intros Hdeb Hm Hg Hno Hmx Htol Hrf Had Hat Hrt Hoo Hdt Ht Hn HF Hf HJ HJm HBK Hsol Hcd Hms HB.
    apply (irk_returns_near F f t0 t1 y0 opts oo m dt nopts sc hm (fun _ => True) 1 B K); try assumption; [lra|apply bounded_everywhere, HBK|exact I|intros; exact I].
  Qed.
End Returns.
