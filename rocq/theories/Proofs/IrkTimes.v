(** Runs of the implicit integrator over the reals: positive steps, and what every attempt computed. *)
From Coq Require Import Reals Lra.
From Verif Require Import Model.Base Model.Scalar Model.LinAlg Model.Newton Model.Enums Model.Options Model.Coeffs Model.Irk Model.IrkCoeffs.
From Verif Require Import Spec.Sums Spec.Trees Spec.RkSpec Spec.Observe Spec.ErkSpec Spec.NewtonSpec Spec.IrkSpec Spec.Methods.
From Verif Require Import Proofs.LoopProofs Proofs.SumsProofs Proofs.OrderProofs Proofs.TablesGeneric Proofs.ErkProofs Proofs.ErkReal Proofs.ErkTimes Proofs.NewtonProofs Proofs.RVec
  Proofs.IrkProofs Proofs.IrkReal Proofs.IrkStages Proofs.IrkRun Proofs.IrkGeneric Proofs.IrkResults Proofs.IrkSteps.
Local Open Scope R_scope.

Lemma Rpow_pos x y : 0 < x -> 0 < Rpow x y.
Proof. intros Hx. unfold Rpow. destruct (Rlt_dec 0 x); [apply Rpower_pos|lra]. Qed.
Lemma IZR_int_add a b c : int_add a b = Ok c -> c = (a + b)%Z.
Proof. unfold int_add. destruct (_ && _)%bool; [|discriminate]. congruence. Qed.

(** the step size the controller proposes *)
Lemma irk_new_dt_R opts mo maxit iters err err1 dts0 dts1 dt nd : irk_new_dt opts mo maxit iters err err1 dts0 dts1 dt = Ok nd ->
  (1 <= iters < maxit)%Z -> 0 < err -> 0 < err1 -> 0 < dts0 -> 0 < dts1 -> 0 < dt ->
  0 < nd /\ nd <= 72 / 10 * dt /\ (0 < io_max_dt opts -> nd <= io_max_dt opts) /\ ((0 <= mo)%Z -> 1 < err -> nd <= 9 / 10 * dt).
Proof.
  intros Hn Hit He He1 Hd0 Hd1 Hdt. unfold irk_new_dt in Hn. destruct (int_add maxit iters) as [mi|] eqn:Emi; [|discriminate]. cbn [rbind] in Hn. apply IZR_int_add in Emi. subst mi.
  cbv zeta in Hn. rewrite !smin_R in Hn. change (sltb (Scalar := RScalar)) with Rltb in Hn. cbn [sZ slit smul sadd sdiv spow seqb RScalar] in Hn. change (Rlit maxit 0) with (IZR maxit) in Hn. change (Rlit 1 0) with 1 in Hn. change (Rlit mo 0) with (IZR mo) in Hn. change (Rlit 0 0) with 0 in Hn.
  change (Rlit (maxit + iters) 0) with (IZR (maxit + iters)) in Hn. change (Rlit 8 0) with 8 in Hn.
  replace (Rlit 9 (-1)) with (9 / 10) in Hn by (unfold Rlit, Z.pow_pos; simpl; lra).
  set (s27 := Rpow (1 / err) (1 / (1 + IZR mo))) in * . match type of Hn with context [Rmin s27 ?s] => set (s28 := s) in Hn end.
  set (fac := 9 / 10 * (IZR maxit + 1) / IZR (maxit + iters)) in * .
  assert (Hie : 0 < 1 / err) by (apply Rdiv_lt_0_compat; lra).
  assert (H27 : 0 < s27) by (apply Rpow_pos; exact Hie).
  assert (H28 : 0 < s28).
  { unfold s28. apply Rmult_lt_0_compat; [apply Rmult_lt_0_compat; [exact H27|apply Rdiv_lt_0_compat; assumption]|]. apply Rpow_pos. destruct (_ || _)%bool; [lra|apply Rdiv_lt_0_compat; assumption]. }
  assert (Hmi : 0 < IZR (maxit + iters)) by (apply IZR_lt; lia).
  assert (Hfac : 0 < fac <= 9 / 10).
  { unfold fac. assert (0 < IZR maxit + 1) by (pose proof (IZR_lt 0 maxit ltac:(lia)); lra). split; [apply Rdiv_lt_0_compat; [lra|exact Hmi]|].
    apply (Rmult_le_reg_r (IZR (maxit + iters))); [exact Hmi|]. unfold Rdiv at 1. rewrite Rmult_assoc, Rinv_l, Rmult_1_r by lra.
    rewrite plus_IZR. assert (1 <= IZR iters) by (apply IZR_le; lia). lra. }
  set (g := Rmin 8 (Rmin s27 s28)) in * .
  assert (Hg : 0 < g <= 8) by (unfold g; split; [repeat apply Rmin_glb_lt; lra|apply Rmin_l]).
  assert (Hg27 : g <= s27) by (unfold g; eapply Rle_trans; [apply Rmin_r|apply Rmin_l]).
  assert (Hfd : 0 < fac * dt) by (apply Rmult_lt_0_compat; lra).
  assert (Hb : 0 < fac * dt * g) by (apply Rmult_lt_0_compat; lra).
  assert (Hfd2 : fac * dt <= 9 / 10 * dt) by (apply Rmult_le_compat_r; lra).
  assert (Hb8 : fac * dt * g <= 72 / 10 * dt) by (replace (72 / 10 * dt) with (9 / 10 * dt * 8) by lra; apply Rmult_le_compat; lra).
  assert (Hb1 : (0 <= mo)%Z -> 1 < err -> fac * dt * g <= 9 / 10 * dt).
  { intros Hmo Hgt. assert (s27 <= 1).
    { unfold s27, Rpow. destruct (Rlt_dec 0 (1 / err)); [|lra]. apply Rpower_le1.
      - split; [exact Hie|]. apply (Rmult_le_reg_r err); [exact He|]. unfold Rdiv. rewrite Rmult_1_l, Rinv_l by lra. lra.
      - assert (0 <= IZR mo) by (apply IZR_le; exact Hmo). left. apply Rdiv_lt_0_compat; lra. }
    replace (9 / 10 * dt) with (9 / 10 * dt * 1) by lra. apply Rmult_le_compat; lra. }
  destruct (Rltb 0 (io_max_dt opts)) eqn:Em; injection Hn as <-.
  - apply Rltb_true in Em. pose proof (Rmin_l (io_max_dt opts) (fac * dt * g)). pose proof (Rmin_r (io_max_dt opts) (fac * dt * g)).
    split; [apply Rmin_glb_lt; assumption|]. split; [lra|]. split; [lra|]. intros Hmo Hgt. specialize (Hb1 Hmo Hgt). lra.
  - apply Rltb_false in Em. split; [exact Hb|]. split; [exact Hb8|]. split; [lra|]. intros Hmo Hgt. apply Hb1; assumption.
Qed.

Section Run.
  Context {LA : LinAlg R} {E : Env R} {St : Type}.
  Local Notation W := (world R St).
  Variables (F : functor R St) (t0 t1 : R).
  Definition pos_state (s : irk_state R) : Prop := 0 < is_dt s /\ 0 < is_dts0 s /\ 0 < is_dts1 s /\ 0 < is_err0 s /\ t0 <= is_t s.

  Lemma measure_pos tot k : 0 < measure_of (T := R) tot k.
  Proof. unfold measure_of. rewrite mprec_eq. change (sltb (Scalar := RScalar)) with Rltb. cbv zeta. destruct (Rltb _ _) eqn:El; [apply mprec_pos|]. apply Rltb_false in El. pose proof mprec_pos. lra. Qed.

  Lemma solve_iters u0 u1 o mm d sc nopts mo dw d2w (Hst : irk_started u0 u1 o mm d sc nopts mo dw d2w) y t h maxit rf xt Rt f0 j0 (w w' : W) sr :
    newton_solve_stages F y t h sc false true maxit rf xt Rt f0 j0 w = (w', Ok sr) -> sr_status sr = Newton.SUCCESS -> (1 <= sr_iters sr < maxit)%Z.
  Proof.
    intros Hr Es. destruct (started_stages F _ _ _ _ _ _ _ _ _ _ Hst _ _ _ _ _ _ _ _ _ _ _ _ Hr) as (v0 & V & D). destruct (sd_status _ _ _ _ _ _ _ _ _ _ _ _ _ _ _ _ _ _ _ D) as [(_ & V0 & E1 & E2 & _)|(E1 & _)].
    - destruct V; [congruence|]. simpl length in E1. lia.
    - rewrite E1 in Es. discriminate.
  Qed.

  Lemma body_pos opts oo m dt sc nopts mo dw d2w (Hst : irk_started t0 t1 opts m dt sc nopts mo dw d2w) s (w w' : W) s' :
    pos_state s -> Rltb (is_t s) t1 = true -> irk_body F t1 opts sc oo nopts mo dw d2w s w = (w', Ok (inl s')) -> pos_state s'.
  Proof.
    intros (X1 & X2 & X3 & X4 & X5) Hlt Hb. apply Rltb_true in Hlt.
    assert (Hc : 0 < clip t1 (is_t s) (is_dt s)) by (rewrite clip_R; apply Rmin_glb_lt; lra).
    apply irk_body_inv in Hb. inversion Hb as [| |w1 sr maxit relax El Ead c d Hss Hst' Hm isk EQw EQs|w1 sr w2 yn est calls err nd El Ead c d Hss Hst' Hem Hgt Hnd EQw EQs|
      w1 sr w2 yn est calls err nd w3 sol El c d Hss Hst' Hem Hgt Hnd Hrec nd' EQw EQs]; clear Hb; subst s'; unfold pos_state; cbn [is_dt is_dts0 is_dts1 is_err0 is_t].
    - unfold d. split; [|auto]. apply Rmult_lt_0_compat; [exact Hc|]. simpl. unfold Rlit, Z.pow_pos. simpl. lra.
    - pose proof (solve_iters _ _ _ _ _ _ _ _ _ _ Hst _ _ _ _ _ _ _ _ _ _ _ _ Hss Hst') as Hit. destruct Hem as [_ (tot & _ & _ & ->)]. pose proof (measure_pos tot (length est)) as Hm.
      apply irk_new_dt_R in Hnd; try assumption. destruct Hnd as (N1 & _). auto.
    - pose proof (solve_iters _ _ _ _ _ _ _ _ _ _ Hst _ _ _ _ _ _ _ _ _ _ _ _ Hss Hst') as Hit. destruct Hem as [_ (tot & _ & _ & Eerr)]. pose proof (measure_pos tot (length est)) as Hm. rewrite <- Eerr in Hm.
      apply irk_new_dt_R in Hnd; try assumption. destruct Hnd as (N1 & _). assert (0 < nd') by (unfold nd'; destruct (io_adaptive opts); assumption).
      repeat split; try assumption. unfold d. simpl. lra.
  Qed.

  Variables (fuel : nat) (y0 : list R) (opts : irk_options R) (oo : output_options) (m : Z) (dt : R).
  Hypothesis Hstart : ndebug = false \/ (t0 < t1 /\ 0 < dt).
  Lemma finished_R (w w' : W) sol : irk_odeint fuel F t0 t1 y0 opts oo m dt w = (w', Ok sol) ->
    exists sc nopts mo dw d2w, irk_started t0 t1 opts m dt sc nopts mo dw d2w /\ finished F t0 t1 y0 opts sc oo nopts mo dw d2w (w_out w) false (fun _ => []) [] pos_state (clip t1 t0 dt) w' sol.
  Proof.
    intros Hr. refine (irk_odeint_finished F false (fun _ => []) _ _ (fun _ _ _ _ _ _ => pos_state) fuel t0 t1 y0 opts oo m dt w w' sol _ Hr); try discriminate.
    intros sc nopts mo dw d2w Hst. split.
    - assert (Hc : 0 < clip t1 t0 dt).
      { destruct Hstart as [Hn|[H1 H2]].
        - destruct Hst as [_ _ _ _ _ _ _ Hd _ _]. specialize (Hd Hn). apply Rltb_true in Hd. simpl in Hd. unfold Rlit in Hd. simpl in Hd. lra.
        - rewrite clip_R. apply Rmin_glb_lt; lra. }
      unfold pos_state, irk_init. cbn [is_dt is_dts0 is_dts1 is_err0 is_t]. repeat split; try assumption; [|lra]. simpl. unfold Rlit, Z.pow_pos. simpl. lra.
    - intros s v v' s' HX Hlt _ Hb. eapply body_pos; eassumption.
  Qed.
End Run.
