(** Property theorems about the implicit integrator irk::odeint (C36-C50, C72).

    [irk_odeint fuel F t0 t1 y0 opts oo m dt w] runs the model of irk::odeint with right-hand side and Jacobian [F] from
    world [w]; [(w', Ok sol)] means that it returned [sol] in world [w'].  [fuel] bounds the number of attempted steps of
    the evaluation; a run that needs more is an error value, never [Ok], so a hypothesis "... = (w', Ok sol)" holds for
    some fuel exactly if the C++ call returns.  A run is described by the list of the steps it attempted
    (Spec/IrkSpec.v, iattempt). *)
From Coq Require Import Reals Lra Sorting.Sorted.
From Verif Require Import Model.Base Model.Scalar Model.LinAlg Model.Newton Model.Enums Model.Options Model.Coeffs Model.IrkCoeffs Model.Irk.
From Verif Require Import Spec.Sums Spec.Trees Spec.RkSpec Spec.Observe Spec.ErkSpec Spec.NewtonSpec Spec.Methods Spec.IrkSpec Spec.IrkRunSpec.
From Verif Require Import Proofs.SumsProofs Proofs.ErkExamples Proofs.IrkResults Proofs.IrkStages Proofs.IrkRefresh Proofs.IrkMerge Proofs.IrkFinal Proofs.IrkExact Proofs.IrkExamples.
From Verif Require Import Spec.IrkTotalSpec Proofs.TablesGeneric Proofs.ErkProofs Proofs.RVec Proofs.ChoiceInstance Proofs.ChoiceLU Proofs.IrkTotal Proofs.IrkTotalExamples.
Local Open Scope R_scope.

(** C36.  The status of the stage solver, for every arithmetic ... *)
Theorem C36_stage_status_every_arithmetic :
  forall (T : Type) (HS : Scalar T) (HL : LinAlg T) (HE : Env T) (St : Type) (F : functor T St) y t dt sc adaptive plu maxit refresh xtol Rtol f0 j0 w w' sr,
  ncols (sc_A sc) = length (sc_b sc) -> length (sc_c sc) = length (sc_b sc) -> (0 < length (sc_b sc))%nat ->
  newton_solve_stages F y t dt sc adaptive plu maxit refresh xtol Rtol f0 j0 w = (w', Ok sr) ->
  (sr_status sr = Newton.SUCCESS /\ (1 <= sr_iters sr < maxit)%Z /\ sr_fun sr = (f0 + length (sc_b sc) * (1 + Z.to_nat (sr_iters sr)))%nat /\
     ((sr_res sr <?. Rtol *. Rtol)%sc = true \/ exists Y0 d step, vadd Y0 (vscale step d) = Ok (sr_Y sr) /\ (la_dot d d <?. xtol *. xtol)%sc = true)) \/
  (sr_status sr = MAXIT_EXCEEDED /\ sr_iters sr = Z.max 1 maxit /\ sr_fun sr = (f0 + length (sc_b sc) * Z.to_nat (Z.max 1 maxit))%nat /\
     ((1 < maxit)%Z -> (sr_res sr <?. Rtol *. Rtol)%sc = false)).
Proof. exact (fun T HS HL HE St => @stage_status T HS HL HE St). Qed.
Print Assumptions C36_stage_status_every_arithmetic.

(** ... and over the reals: the stages are iterates of Newton's method for the stage equations, and SUCCESS means that the
    sum of the squared defects is below Rtol^2 or the last increment was below xtol in norm. *)
Theorem C36_stage_solver_exact :
  forall (LA : LinAlg R) (HP : ExactProducts LA) (HX : ExactSolve LA) (HLU : ExactLU LA) (HE : Env R) (St : Type) (F : functor R St) y t dt sc,
  nrows (sc_A sc) = length (sc_b sc) -> ncols (sc_A sc) = length (sc_b sc) -> mat_wf (sc_A sc) -> length (sc_c sc) = length (sc_b sc) -> (0 < length (sc_b sc))%nat ->
  forall f, computes F f -> jac_matrices F ->
  forall adaptive plu maxit refresh xtol Rtol w w' f0 j0 sr,
  newton_solve_stages F y t dt sc adaptive plu maxit refresh xtol Rtol f0 j0 w = (w', Ok sr) ->
  let n := length y in let s := length (sc_b sc) in let a := mfun (sc_A sc) in let c := vfun (sc_c sc) in
  let Y := sr_Y sr in
  (0 < n)%nat /\ length Y = (s * n)%nat /\ (forall j, (j < s)%nat -> length (stage_slope n c f t dt y Y j) = n) /\
  sr_res sr = defect_norm2 n s a c f t dt y Y /\
  jac_answers F t y (sr_J sr) /\ nrows (sr_J sr) = n /\ ncols (sr_J sr) = n /\
  ((sr_status sr = Newton.SUCCESS /\ (1 <= sr_iters sr < maxit)%Z /\ sr_fun sr = (f0 + s * (1 + Z.to_nat (sr_iters sr)))%nat /\
    exists Y0 J d, newton_reaches n s a c f t dt y (jac_answers F t y) adaptive Y0 /\ jac_answers F t y J /\ stage_newton n s a c f t dt y J adaptive Y0 Y d /\
      (defect_norm2 n s a c f t dt y Y < Rtol * Rtol \/ Rsum (length d) (fun i => ventry d i * ventry d i) < xtol * xtol)) \/
   (sr_status sr = MAXIT_EXCEEDED /\ sr_iters sr = Z.max 1 maxit /\ sr_fun sr = (f0 + s * Z.to_nat (Z.max 1 maxit))%nat /\
    ((1 < maxit)%Z -> Rtol * Rtol <= defect_norm2 n s a c f t dt y Y))).
Proof. exact (fun LA HP HX HLU HE St => @solve_R LA HP HX HLU HE St). Qed.
Print Assumptions C36_stage_solver_exact.
(** y' = (cos t, - cos t), RADAU_IIA_53, one step of 1/10: *)
Example C36_example : exists sc w' sr, irk_get_coefficients (T := R) RADAU_IIA_53 = Ok sc /\
  @newton_solve_stages R RScalar choice_LA it_E unit (it_F cos) [1; 2] 0 (1 / 10) sc false true 10 1 (1 / 1000) (1 / 1000) 0 0 (World tt []) = (w', Ok sr) /\
  length (sr_Y sr) = (3 * 2)%nat.
Proof.
  destruct (irk_get_ok (T := R) RADAU_IIA_53) as (sc & Hg & _ & Hd). destruct (dims_of sc _ Hd) as (L1 & L2 & L3 & L4 & L5).
  assert (Er : nrows (sc_A sc) = length (sc_b sc)) by congruence. assert (Ec : ncols (sc_A sc) = length (sc_b sc)) by (unfold ncols; congruence).
  assert (Ew : mat_wf (sc_A sc)) by (unfold mat_wf; rewrite L3; exact L5). assert (El : length (sc_c sc) = length (sc_b sc)) by congruence. assert (Es : (0 < length (sc_b sc))%nat) by (rewrite L1; cbn; lia).
  destruct (newton_solve_stages_total (LA := choice_LA) (HE := it_E) eq_refl (it_F cos) [1; 2] 0 (1 / 10) 1 sc Er Ec Ew El ltac:(cbn; lia) Es
    (it_dim cos) (it_returns_jac cos) (it_solvable cos sc 1) ltac:(lra) false 10 1 (1 / 1000) (1 / 1000) 0 0 ltac:(lia) (World tt [])) as (w' & sr & E).
  exists sc, w', sr. split; [exact Hg|]. split; [exact E|].
  destruct (C36_stage_solver_exact choice_LA _ _ _ it_E unit (it_F cos) [1; 2] 0 (1 / 10) sc Er Ec Ew El Es
    (it_f cos) (it_computes cos) (it_matrices cos) _ _ _ _ _ _ _ _ _ _ _ E) as (_ & L & _). rewrite L, L1. reflexivity.
Qed.

(** C37.  With newton_opts.maxit <= 1 an adaptive call never returns; a non-adaptive one returns an error and the initial
    point only. *)
Theorem C37_iteration_limit_one_never_returns :
  forall (T : Type) (HS : Scalar T) (HL : LinAlg T) (HE : Env T) (St : Type) (F : functor T St) fuel t0 t1 y0 opts oo m dt w w' sol nopts,
  io_newton opts = Some nopts -> (o_maxit nopts <= 1)%Z -> (t0 <?. t1)%sc = true ->
  irk_odeint fuel F t0 t1 y0 opts oo m dt w = (w', Ok sol) ->
  io_adaptive opts = false /\ io_status sol = GENERAL_ERROR /\ io_t_vals sol = [t0] /\ io_y_vals sol = [y0] /\
  ct_attempt (io_count sol) = 1%nat /\ w_out w' = w_out w.
Proof. exact (fun T HS HL HE St => @irk_maxit_one T HS HL HE St). Qed.
Print Assumptions C37_iteration_limit_one_never_returns.
Example C37_example : snd (ig_run false true (-1) 1 1 RADAU_IIA_53 (ig_both 1)) = Err EFuel /\
  ig_summary (ig_run false false (-1) 1 1 RADAU_IIA_53 (ig_both 1)) = Some (GENERAL_ERROR, 1, 0, 0, 3, 1, 1, 0)%nat.
Proof. exact ig_maxit_one. Qed.

(** C38.  Two runs that differ only in refresh_jac (not 0) do the same: same result up to jac_evals, same failure, same
    file. *)
Theorem C38_refresh_interval_irrelevant :
  forall (T : Type) (HS : Scalar T) (HL : LinAlg T) (HE : Env T) (St : Type) (F : functor T St), state_independent F ->
  forall fuel t0 t1 y0 opts oo m dt r1 r2 w w1 w2 x1 x2, r1 <> 0%Z -> r2 <> 0%Z ->
  irk_odeint fuel F t0 t1 y0 (with_refresh opts r1) oo m dt w = (w1, x1) ->
  irk_odeint fuel F t0 t1 y0 (with_refresh opts r2) oo m dt w = (w2, x2) ->
  w_out w1 = w_out w2 /\
  match x1, x2 with Ok a, Ok b => same_but_jac_evals a b | Err e1, Err e2 => e1 = e2 | _, _ => False end.
Proof. exact (fun T HS HL HE St => @irk_refresh T HS HL HE St). Qed.
Print Assumptions C38_refresh_interval_irrelevant.
(** With refresh_jac = 0, "never", a stage solver that may iterate at all returns only if its first iteration converges. *)
Theorem C38_refresh_zero_needs_immediate_convergence :
  forall (T : Type) (HS : Scalar T) (HL : LinAlg T) (HE : Env T) (St : Type) (F : functor T St) y t dt sc adaptive plu maxit xt Rt f0 j0 w w' sr,
  newton_solve_stages F y t dt sc adaptive plu maxit 0 xt Rt f0 j0 w = (w', Ok sr) ->
  (sr_status sr = Newton.SUCCESS /\ sr_iters sr = 1%Z) \/ (maxit <= 1)%Z.
Proof. exact (fun T HS HL HE St => @stage_refresh_zero T HS HL HE St). Qed.
Print Assumptions C38_refresh_zero_needs_immediate_convergence.
Example C38_example :
  ig_summary (ig_run false true (-1) 5 1 RADAU_IIA_53 (ig_both 1)) = Some (SUCCESS, 13, 8, 0, 198, 59, 6, 5)%nat /\
  ig_summary (ig_run false true (-1) 5 3 RADAU_IIA_53 (ig_both 1)) = Some (SUCCESS, 13, 8, 0, 198, 25, 6, 5)%nat /\
  snd (ig_run false true (-1) 5 0 RADAU_IIA_53 (ig_both 1)) = Err EUB.
Proof. destruct ig_runs as (H1 & H2 & _). split; [exact H1|]. split; [exact H2|exact ig_refresh_zero]. Qed.

(** C39.  What never returns a solution, whatever the problem. *)
Theorem C39_methods_that_cannot_run :
  forall (T : Type) (HS : Scalar T) (HL : LinAlg T) (HE : Env T) (St : Type) (F : functor T St) fuel t0 t1 y0 opts oo dt w,
  io_newton opts <> None -> ((if (t0 +. dt >?. t1)%sc then t1 -. t0 else dt) >?. sZ 0)%sc = true ->
  (forall m, ~ In m implicit_methods -> irk_odeint fuel F t0 t1 y0 opts oo m dt w = (w, Err (if ndebug then EUB else EAbort))) /\
  (forall m, m = GAUSS_LEGENDRE_147 \/ m = LOBATTO_IIIA_127 -> irk_odeint fuel F t0 t1 y0 opts oo m dt w = (w, Err EUB)) /\
  (exists k, irk_odeint fuel F t0 t1 y0 opts oo IMPLICIT_EULER dt w = (w, Err (EThrow k))) /\
  ((forall (A : mat T) i, (i < nrows A)%nat -> nrows A = ncols A -> Forall (fun c => nth i c (sZ 1) = slit 0 0) (mcols A) -> la_inv A = None) ->
   forall m, m = LOBATTO_IIIA_43 \/ m = GAUSS_LEGENDRE_42 -> irk_odeint fuel F t0 t1 y0 opts oo m dt w = (w, Err (EThrow ERuntime))).
Proof. exact (fun T HS HL HE St => @irk_refused T HS HL HE St). Qed.
Print Assumptions C39_methods_that_cannot_run.
(** Without adaptivity no step is ever completed. *)
Theorem C39_nonadaptive_never_steps :
  forall (T : Type) (HS : Scalar T) (HL : LinAlg T) (HE : Env T) (St : Type) (F : functor T St) fuel t0 t1 y0 opts oo m dt w w' sol,
  irk_odeint fuel F t0 t1 y0 opts oo m dt w = (w', Ok sol) -> io_adaptive opts = false -> (t0 <?. t1)%sc = true ->
  io_status sol = GENERAL_ERROR /\ io_t_vals sol = [t0] /\ io_y_vals sol = [y0] /\ ct_attempt (io_count sol) = 1%nat /\ w_out w' = w_out w.
Proof. exact (fun T HS HL HE St => @irk_nonadaptive T HS HL HE St). Qed.
Print Assumptions C39_nonadaptive_never_steps.
(** Compiled with NDEBUG nothing runs that would iterate. *)
Theorem C39_ndebug_never_steps :
  forall (T : Type) (HS : Scalar T) (HL : LinAlg T) (HE : Env T) (St : Type) (F : functor T St) fuel t0 t1 y0 opts oo m dt w w' sol nopts,
  io_newton opts = Some nopts -> ndebug = true -> (t0 <?. t1)%sc = true ->
  irk_odeint fuel F t0 t1 y0 opts oo m dt w = (w', Ok sol) ->
  io_adaptive opts = false /\ (o_maxit nopts <= 1)%Z /\ io_status sol = GENERAL_ERROR /\ io_t_vals sol = [t0] /\ io_y_vals sol = [y0] /\
  ct_attempt (io_count sol) = 1%nat.
Proof. exact (fun T HS HL HE St => @irk_ndebug T HS HL HE St). Qed.
Print Assumptions C39_ndebug_never_steps.
Example C39_example :
  snd (ig_run true true (-1) 5 1 RADAU_IIA_53 (ig_both 1)) = Err (EThrow ELogic) /\
  snd (ig_run false false (-1) 50 1 RADAU_IIA_32 (ig_both 1)) = Err (EThrow ELogic) /\
  snd (ig_run false true (-1) 5 1 IMPLICIT_EULER (ig_both 1)) = Err (EThrow ELogic) /\
  snd (ig_run false true (-1) 5 1 LOBATTO_IIIA_43 (ig_both 1)) = Err (EThrow ERuntime) /\
  snd (ig_run false true (-1) 5 1 GAUSS_LEGENDRE_42 (ig_both 1)) = Err (EThrow ERuntime) /\
  snd (ig_run false true (-1) 5 1 LOBATTO_IIIA_127 (ig_both 1)) = Err EUB /\
  snd (ig_run false true (-1) 5 1 GAUSS_LEGENDRE_147 (ig_both 1)) = Err EUB.
Proof. exact ig_throws. Qed.

(** C40.  Alignment: the output records the initial point and, when storing, exactly the accepted steps whose number is
    a multiple of the interval; the stored stages are always zero vectors. *)
Theorem C40_irk_output_aligned :
  forall (T : Type) (HS : Scalar T) (HL : LinAlg T) (HE : Env T) (St : Type) (F : functor T St) fuel t0 t1 y0 opts oo m dt w w' sol,
  irk_odeint fuel F t0 t1 y0 opts oo m dt w = (w', Ok sol) ->
  exists atts,
    (ichained t0 y0 atts /\
     Forall (fun a => (ia_t a <?. t1)%sc = true /\ length (ia_y a) = length y0 /\
                      (ia_out a <> NewtonFailed -> length (ia_yn a) = length y0 /\ length (ia_est a) = length y0)) atts) /\
    (ct_newton_success (io_count sol) = ct_reject_err (io_count sol) + length (ended Accepted atts))%nat /\
    let kept := if store_in_vectors oo then every (output_interval oo) (ended Accepted atts) else [] in
    io_t_vals sol = t0 :: map ia_end kept /\ io_y_vals sol = y0 :: map ia_yn kept /\
    io_err_est sol = vzeros (length y0) :: map ia_est kept /\ io_err sol = slit 0 0 :: map ia_err kept /\
    (exists sc, irk_get_coefficients m = Ok sc /\ io_stages sol = repeat (vzeros (length y0 * length (sc_b sc))) (S (length kept))) /\
    w_out w' = w_out w ++ (if write_to_file oo then map (fun a => (ia_end a, ia_yn a)) (every (output_interval oo) (ended Accepted atts)) else []) /\
    (ended Accepted atts <> [] -> output_interval oo <> 0%Z).
Proof. exact (fun T HS HL HE St => @irk_aligned T HS HL HE St). Qed.
Print Assumptions C40_irk_output_aligned.
(** Runs in doubles (status, attempts, rejections by Newton and by the error, fun_evals, jac_evals, entries, file lines): *)
Example C40_example :
  ig_summary (ig_run false true (-1) 5 1 RADAU_IIA_53 (ig_both 1)) = Some (SUCCESS, 13, 8, 0, 198, 59, 6, 5)%nat /\
  ig_summary (ig_run false true (-1) 5 1 RADAU_IIA_32 (ig_both 2)) = Some (SUCCESS, 37, 4, 1, 273, 86, 17, 16)%nat /\
  ig_summary (ig_run false true 2 5 2 LOBATTO_IIIC_43 (ig_both 1)) = Some (ERROR_MAX_STEPS_EXCEEDED, 11, 6, 1, 150, 26, 4, 3)%nat.
Proof. destruct ig_runs as (H1 & _ & H3 & H4 & _). auto. Qed.

(** C41.  Accounting. *)
Theorem C41_irk_step_accounting :
  forall (T : Type) (HS : Scalar T) (HL : LinAlg T) (HE : Env T) (St : Type) (F : functor T St) fuel t0 t1 y0 opts oo m dt w w' sol,
  irk_odeint fuel F t0 t1 y0 opts oo m dt w = (w', Ok sol) ->
  let c := io_count sol in
  let acc := (ct_newton_success c - ct_reject_err c)%nat in
  (ct_reject_err c <= ct_newton_success c)%nat /\ ct_reject_newton c = ct_newton_maxit_exceed c /\
  ct_newton_incr_diverge c = 0%nat /\ ct_newton_iter_error_too_large c = 0%nat /\
  (output_interval oo = 1%Z -> store_in_vectors oo = true -> length (io_t_vals sol) = S acc) /\
  ((io_status sol = SUCCESS /\ ct_attempt c = (ct_newton_success c + ct_reject_newton c)%nat /\ io_elapsed_time sol = Some clock /\
    io_accept_frac sol = Some (sZ (Z.of_nat acc) /. sZ (Z.of_nat (ct_attempt c)))%sc) \/
   (io_status sol = ERROR_MAX_STEPS_EXCEEDED /\ ct_attempt c = (ct_newton_success c + ct_reject_newton c + 1)%nat /\
    io_elapsed_time sol = None /\ io_accept_frac sol = None) \/
   (io_status sol = GENERAL_ERROR /\ io_adaptive opts = false /\ ct_attempt c = 1%nat /\ ct_newton_success c = 0%nat /\ ct_reject_newton c = 0%nat /\
    io_elapsed_time sol = None /\ io_accept_frac sol = None)).
Proof. exact (fun T HS HL HE St => @irk_accounting T HS HL HE St). Qed.
Print Assumptions C41_irk_step_accounting.
Example C41_example :
  ig_summary (ig_run false true (-1) 5 1 RADAU_IIA_32 (ig_both 2)) = Some (SUCCESS, 37, 4, 1, 273, 86, 17, 16)%nat /\
  ig_summary (ig_run false false 2 2 2 LOBATTO_IIIC_43 (ig_both 1)) = Some (GENERAL_ERROR, 1, 0, 0, 6, 1, 1, 0)%nat.
Proof. destruct ig_runs as (_ & _ & H3 & _ & H5). auto. Qed.

(** C42.  The counters are the numbers of calls actually made. *)
Theorem C42_irk_evaluation_counters_true :
  forall (T : Type) (HS : Scalar T) (HL : LinAlg T) (HE : Env T) (St : Type) (F : functor T St) fuel t0 t1 y0 opts oo m dt w w' sol,
  irk_odeint fuel (logged F) t0 t1 y0 opts oo m dt w = (w', Ok sol) ->
  exists l, snd (w_st w') = snd (w_st w) ++ l /\ count_fun l = ct_fun_evals (io_count sol) /\ count_jac l = ct_jac_evals (io_count sol).
Proof. exact (fun T HS HL HE St => @irk_calls T HS HL HE St). Qed.
Print Assumptions C42_irk_evaluation_counters_true.
Example C42_example : ig_summary (ig_run false true (-1) 5 1 RADAU_IIA_53 (ig_both 1)) = Some (SUCCESS, 13, 8, 0, 198, 59, 6, 5)%nat.
Proof. exact (proj1 ig_runs). Qed.

(** C43.  Exact arithmetic: recorded times increase strictly, stay in [t0,t1], and end exactly at t1. *)
Theorem C43_irk_times_exact :
  forall (HL : LinAlg R) (HE : Env R) (St : Type) (F : functor R St) fuel t0 t1 y0 opts oo m dt w w' sol,
  (ndebug = false \/ (t0 < t1 /\ 0 < dt)) ->
  irk_odeint fuel F t0 t1 y0 opts oo m dt w = (w', Ok sol) -> t0 <= t1 ->
  StronglySorted Rlt (io_t_vals sol) /\ Forall (fun t => t0 <= t <= t1) (io_t_vals sol) /\
  (io_status sol = SUCCESS -> store_in_vectors oo = true -> output_interval oo = 1%Z -> last (io_t_vals sol) t0 = t1).
Proof. exact (fun HL HE St => @irk_times HL HE St). Qed.
Print Assumptions C43_irk_times_exact.
(** y' = (cos t, - cos t) on [0,2], for every method that can run: *)
Example C43_example : forall m, In m implicit_runnable -> exists fuel w' sol,
  @irk_odeint R RScalar choice_LA it_E unit fuel (it_F cos) 0 2 [1; 2] (it_opts 1000) output_options_default m (1 / 10) (World tt []) = (w', Ok sol) /\
  StronglySorted Rlt (io_t_vals sol) /\ (io_status sol = SUCCESS -> last (io_t_vals sol) 0 = 2).
Proof.
  intros m Hm. destruct (it_run cos it_cos m [1; 2] Hm eq_refl) as (fuel & w' & sol & E). exists fuel, w', sol. split; [exact E|].
  destruct (C43_irk_times_exact choice_LA it_E unit _ _ _ _ _ _ _ _ _ _ _ _ (or_introl eq_refl) E ltac:(lra)) as (K1 & _ & K3). split; [exact K1|]. intros Hs. exact (K3 Hs eq_refl eq_refl).
Qed.

(** C44.  Accepted steps. *)
Theorem C44_irk_accepted_steps :
  forall (LA : LinAlg R) (HP : ExactProducts LA) (HX : ExactSolve LA) (HLU : ExactLU LA) (HI : ExactInverse LA) (HE : Env R) (St : Type)
    (F : functor R St) f, computes F f -> jac_matrices F ->
  forall fuel t0 t1 y0 opts oo m dt w w' sol, (ndebug = false \/ (t0 < t1 /\ 0 < dt)) ->
  irk_odeint fuel F t0 t1 y0 opts oo m dt w = (w', Ok sol) ->
  exists sc nopts atts, irk_get_coefficients m = Ok sc /\ io_newton opts = Some nopts /\ records t0 y0 oo atts sol /\ ichained t0 y0 atts /\
  forall x, In x (ended Accepted atts) -> length (ia_y x) = length y0 /\ ia_err x <= 1 /\
    let n := length y0 in let s := length (sc_b sc) in let a := mfun (sc_A sc) in let b := vfun (sc_b sc) in let c := vfun (sc_c sc) in
    let t := ia_t x in let h := ia_dt x in let y := ia_y x in
    exists Y d Y0 J e, length Y = (s * n)%nat /\ stage_weights s a b d /\
      length (ia_yn x) = n /\ (forall p, (p < n)%nat -> ventry (ia_yn x) p = ventry y p + weighted n s d Y p) /\
      jac_answers F t y J /\ stage_newton n s a c f t h y J false Y0 Y e /\
      (defect_norm2 n s a c f t h y Y < o_tol nopts * o_tol nopts \/ Rsum (length e) (fun i => ventry e i * ventry e i) < o_dx_delta nopts * o_dx_delta nopts) /\
      (forall p, (p < n)%nat -> ventry (ia_yn x) p - (ventry y p + h * Rsum s (fun j => b j * ventry (stage_slope n c f t h y Y j) p)) =
         Rsum s (fun i => d i * stage_defect n s a c f t h y Y i p)) /\
      (defect_norm2 n s a c f t h y Y = 0 -> rk_step n s a b c f t h y (ia_yn x) (map (stage_slope n c f t h y Y) (seq 0 s))).
Proof. exact (fun LA HP HX HLU HI HE St => @irk_accepted_steps LA HP HX HLU HI HE St). Qed.
Print Assumptions C44_irk_accepted_steps.
(** The classes of exact linear algebra have a common instance, and the hypotheses hold of y' = (cos t, - cos t): *)
Example C44_example : ExactProducts choice_LA /\ ExactSolve choice_LA /\ ExactLU choice_LA /\ ExactInverse choice_LA /\
  computes (it_F cos) (it_f cos) /\ jac_matrices (it_F cos) /\
  forall m, In m implicit_runnable -> exists fuel w' sol, @irk_odeint R RScalar choice_LA it_E unit fuel (it_F cos) 0 2 [1; 2] (it_opts 1000) output_options_default m (1 / 10) (World tt []) = (w', Ok sol).
Proof. repeat (split; [typeclasses eauto|]). split; [apply it_computes|]. split; [apply it_matrices|]. intros m Hm. exact (it_run cos it_cos m [1; 2] Hm eq_refl). Qed.

(** C45.  Linear invariants. *)
Theorem C45_irk_linear_invariants :
  forall (LA : LinAlg R) (HP : ExactProducts LA) (HX : ExactSolve LA) (HLU : ExactLU LA) (HI : ExactInverse LA) (HE : Env R) (St : Type)
    (F : functor R St) f, computes F f -> jac_matrices F ->
  forall fuel t0 t1 y0 opts oo m dt w w' sol, (ndebug = false \/ (t0 < t1 /\ 0 < dt)) ->
  irk_odeint fuel F t0 t1 y0 opts oo m dt w = (w', Ok sol) ->
  forall wt : nat -> R,
  (forall t y, length y = length y0 -> Rsum (length y0) (fun q => wt q * ventry (f t y) q) = 0) ->
  (forall t y J, jac_answers F t y J -> forall q, (q < length y0)%nat -> Rsum (length y0) (fun p => wt p * mentry J p q) = 0) ->
  (forall sc, irk_get_coefficients m = Ok sc -> stage_matrices_invertible F (length y0) (length (sc_b sc)) (mfun (sc_A sc)) (t1 - t0)) ->
  forall k, (k < length (io_y_vals sol))%nat ->
  Rsum (length y0) (fun q => wt q * ventry (nth k (io_y_vals sol) []) q) = Rsum (length y0) (fun q => wt q * ventry y0 q).
Proof. exact (fun LA HP HX HLU HI HE St => @irk_invariant LA HP HX HLU HI HE St). Qed.
Print Assumptions C45_irk_linear_invariants.
Example C45_example : forall m, In m implicit_runnable -> exists fuel w' sol,
  @irk_odeint R RScalar choice_LA it_E unit fuel (it_F cos) 0 2 [1; 2] (it_opts 1000) output_options_default m (1 / 10) (World tt []) = (w', Ok sol) /\
  forall k, (k < length (io_y_vals sol))%nat -> ventry (nth k (io_y_vals sol) []) 0 + ventry (nth k (io_y_vals sol) []) 1 = 3.
Proof.
  intros m Hm. destruct (it_run cos it_cos m [1; 2] Hm eq_refl) as (fuel & w' & sol & E). exists fuel, w', sol. split; [exact E|]. intros k Hk.
  pose proof (C45_irk_linear_invariants choice_LA _ _ _ _ it_E unit (it_F cos) (it_f cos) (it_computes cos) (it_matrices cos) _ _ _ _ _ _ _ _ _ _ _ (or_introl eq_refl) E (fun _ => 1)
    ltac:(intros t y Ly; unfold it_f, ventry; cbn; ring)
    ltac:(intros t y J HJ q Hq; rewrite (Rsum_ext _ _ (fun _ => 0)) by (intros p Hp; rewrite (it_zero cos _ _ _ p q HJ Hp Hq); ring); cbn; ring)
    (fun sc _ => proj1 (it_solvable cos sc _)) k Hk) as K1. cbn [length Rsum] in K1. unfold ventry at 3 4 in K1. cbn [nth] in K1. lra.
Qed.

(** C46.  Polynomial right-hand sides: exact for the methods with closed-form coefficients ... *)
Theorem C46_irk_polynomials_exact :
  forall (LA : LinAlg R) (HP : ExactProducts LA) (HX : ExactSolve LA) (HLU : ExactLU LA) (HI : ExactInverse LA) (HE : Env R) (St : Type)
    (F : functor R St) f, computes F f -> jac_matrices F ->
  forall fuel t0 t1 y0 opts oo m dt w w' sol, (ndebug = false \/ (t0 < t1 /\ 0 < dt)) ->
  irk_odeint fuel F t0 t1 y0 opts oo m dt w = (w', Ok sol) ->
  forall p d cf, In (m, p) implicit_orders -> (d <= p)%nat ->
  (forall t y, length y = length y0 -> f t y = vtab (length y0) (fun q => poly d (cf q) t)) ->
  (forall t y J, jac_answers F t y J -> forall i j, (i < length y0)%nat -> (j < length y0)%nat -> mentry J i j = 0) ->
  forall k q, (k < length (io_t_vals sol))%nat -> (q < length y0)%nat ->
  ventry (nth k (io_y_vals sol) []) q = ventry y0 q + poly_integral d (cf q) t0 (nth k (io_t_vals sol) 0).
Proof. exact (fun LA HP HX HLU HI HE St => @irk_poly_exact LA HP HX HLU HI HE St). Qed.
Print Assumptions C46_irk_polynomials_exact.
(** y' = (1/2, -1/2): *)
Example C46_example : exists fuel w' sol, @irk_odeint R RScalar choice_LA it_E unit fuel (it_F (fun _ => 1 / 2)) 0 2 [1; 2] (it_opts 1000) output_options_default RADAU_IIA_53 (1 / 10) (World tt []) = (w', Ok sol) /\
  forall k, (k < length (io_t_vals sol))%nat -> ventry (nth k (io_y_vals sol) []) 0 = 1 + nth k (io_t_vals sol) 0 / 2.
Proof.
  destruct (it_run (fun _ => 1 / 2) it_half RADAU_IIA_53 [1; 2] ltac:(unfold implicit_runnable; cbn; tauto) eq_refl) as (fuel & w' & sol & E). exists fuel, w', sol. split; [exact E|]. intros k Hk.
  rewrite (C46_irk_polynomials_exact choice_LA _ _ _ _ it_E unit (it_F (fun _ => 1 / 2)) (it_f (fun _ => 1 / 2)) (it_computes _) (it_matrices _) _ _ _ _ _ _ _ _ _ _ _ (or_introl eq_refl) E
    5%nat 1%nat (fun q _ => if (q =? 0)%nat then 1 / 2 else - (1 / 2)) ltac:(unfold implicit_orders; cbn; tauto) ltac:(lia)
    ltac:(intros t y Ly; unfold it_f, vtab, poly; cbn; f_equal; [ring|]; f_equal; ring)
    (fun t y J HJ i j Hi Hj => it_zero (fun _ => 1 / 2) t y J i j HJ Hi Hj) k 0%nat Hk ltac:(cbn; lia)).
  unfold poly_integral, ventry. cbn. field.
Qed.
(** ... and up to the 16 digits of the coefficients for those entered as decimals. *)
Theorem C46_irk_polynomials_decimal :
  forall (LA : LinAlg R) (HP : ExactProducts LA) (HX : ExactSolve LA) (HLU : ExactLU LA) (HI : ExactInverse LA) (HE : Env R) (St : Type)
    (F : functor R St) f, computes F f -> jac_matrices F ->
  forall fuel t0 t1 y0 opts oo m dt w w' sol, (ndebug = false \/ (t0 < t1 /\ 0 < dt)) ->
  irk_odeint fuel F t0 t1 y0 opts oo m dt w = (w', Ok sol) ->
  forall s p d cf, In (m, s, p) decimal_orders -> (d <= p)%nat ->
  (forall t y, length y = length y0 -> f t y = vtab (length y0) (fun q => poly d (cf q) t)) ->
  (forall t y J, jac_answers F t y J -> forall i j, (i < length y0)%nat -> (j < length y0)%nat -> mentry J i j = 0) ->
  forall k q, (k < length (io_t_vals sol))%nat -> (q < length y0)%nat ->
  Rabs (ventry (nth k (io_y_vals sol) []) q - (ventry y0 q + poly_integral d (cf q) t0 (nth k (io_t_vals sol) 0))) <=
    1 / 10000000000000000 * (nth k (io_t_vals sol) 0 - t0) * Rsum d (fun j => Rabs (cf q j) * (Rabs t0 + (t1 - t0)) ^ j).
Proof. exact (fun LA HP HX HLU HI HE St => @irk_poly_decimal LA HP HX HLU HI HE St). Qed.
Print Assumptions C46_irk_polynomials_decimal.
Example C46_decimal_example : exists fuel w' sol, @irk_odeint R RScalar choice_LA it_E unit fuel (it_F (fun _ => 1 / 2)) 0 2 [1; 2] (it_opts 1000) output_options_default RADAU_IIA_95 (1 / 10) (World tt []) = (w', Ok sol) /\
  In (RADAU_IIA_95, 5, 9)%nat decimal_orders /\ (forall t y, it_f (fun _ => 1 / 2) t y = vtab 2 (fun q => poly 1 (fun _ => if (q =? 0)%nat then 1 / 2 else - (1 / 2)) t)).
Proof.
  destruct (it_run (fun _ => 1 / 2) it_half RADAU_IIA_95 [1; 2] ltac:(unfold implicit_runnable; cbn; tauto) eq_refl) as (fuel & w' & sol & E). exists fuel, w', sol. split; [exact E|].
  split; [unfold decimal_orders; cbn; tauto|]. intros t y. unfold it_f, vtab, poly; cbn; f_equal; [ring|]; f_equal; ring.
Qed.

(** C47.  The step limit. *)
Theorem C47_irk_step_limit :
  forall (T : Type) (HS : Scalar T) (HL : LinAlg T) (HE : Env T) (St : Type) (F : functor T St) fuel t0 t1 y0 opts oo m dt w w' sol,
  irk_odeint fuel F t0 t1 y0 opts oo m dt w = (w', Ok sol) ->
  let steps := Z.of_nat (ct_newton_success (io_count sol) - ct_reject_err (io_count sol)) in
  exists reached, (output_interval oo = 1%Z -> store_in_vectors oo = true -> reached = last (io_t_vals sol) t0) /\
    (io_status sol = SUCCESS /\ (reached <?. t1)%sc = false /\ ((0 <= io_max_steps opts)%Z -> (steps <= io_max_steps opts + 1)%Z) \/
     io_status sol = ERROR_MAX_STEPS_EXCEEDED /\ (reached <?. t1)%sc = true /\ (0 <= io_max_steps opts)%Z /\ steps = (io_max_steps opts + 1)%Z \/
     io_status sol = GENERAL_ERROR /\ io_adaptive opts = false /\ (t0 <?. t1)%sc = true /\ io_t_vals sol = [t0]).
Proof. exact (fun T HS HL HE St => @irk_limit T HS HL HE St). Qed.
Print Assumptions C47_irk_step_limit.
Example C47_example : ig_summary (ig_run false true 2 5 2 LOBATTO_IIIC_43 (ig_both 1)) = Some (ERROR_MAX_STEPS_EXCEEDED, 11, 6, 1, 150, 26, 4, 3)%nat.
Proof. destruct ig_runs as (_ & _ & _ & H4 & _). exact H4. Qed.

(** C48.  The file: when also storing, it holds the stored entries after the first. *)
Theorem C48_irk_file_is_the_accepted_trajectory :
  forall (T : Type) (HS : Scalar T) (HL : LinAlg T) (HE : Env T) (St : Type) (F : functor T St) fuel t0 t1 y0 opts oo m dt w w' sol,
  irk_odeint fuel F t0 t1 y0 opts oo m dt w = (w', Ok sol) ->
  (write_to_file oo = false -> w_out w' = w_out w) /\
  (write_to_file oo = true -> store_in_vectors oo = true -> w_out w' = w_out w ++ tl (combine (io_t_vals sol) (io_y_vals sol))) /\
  ((ct_reject_err (io_count sol) < ct_newton_success (io_count sol))%nat -> output_interval oo <> 0%Z).
Proof. exact (fun T HS HL HE St => @irk_file T HS HL HE St). Qed.
Print Assumptions C48_irk_file_is_the_accepted_trajectory.
Example C48_example :
  ig_summary (ig_run false true (-1) 5 1 RADAU_IIA_32 (ig_both 2)) = Some (SUCCESS, 37, 4, 1, 273, 86, 17, 16)%nat /\
  snd (ig_run false true (-1) 5 1 RADAU_IIA_53 (ig_both 0)) = Err EUB.
Proof. destruct ig_runs as (_ & _ & H3 & _). split; [exact H3|exact ig_interval_zero]. Qed.

(** C49.  Merging. *)
Theorem C49_merge_concatenates :
  forall (T : Type) (HS : Scalar T) (a b c : irk_output T), merge_rk_output a b = Ok c ->
  io_t_vals c = io_t_vals a ++ io_t_vals b /\ io_y_vals c = io_y_vals a ++ io_y_vals b /\ io_stages c = io_stages a ++ io_stages b /\
  io_err_est c = io_err_est a ++ io_err_est b /\ io_err c = io_err a ++ io_err b /\
  (forall k, Z.testbit (io_status c) k = Z.testbit (io_status a) k || Z.testbit (io_status b) k) /\
  (io_status c = 0%Z <-> io_status a = 0%Z /\ io_status b = 0%Z) /\
  (forall g, In g [ct_attempt; ct_reject_newton; ct_reject_err; ct_newton_success; ct_newton_incr_diverge; ct_newton_iter_error_too_large; ct_newton_maxit_exceed] ->
     g (io_count c) = (g (io_count a) + g (io_count b))%nat) /\
  ct_fun_evals (io_count c) = ct_fun_evals (io_count a) /\ ct_jac_evals (io_count c) = ct_jac_evals (io_count a).
Proof. exact (fun T HS => @merge_ok T HS). Qed.
Print Assumptions C49_merge_concatenates.
Theorem C49_merge_associative :
  forall a b c ab bc x y : irk_output R, io_t_vals a <> [] -> io_t_vals b <> [] -> io_t_vals c <> [] ->
  merge_rk_output a b = Ok ab -> merge_rk_output ab c = Ok x -> merge_rk_output b c = Ok bc -> merge_rk_output a bc = Ok y -> x = y.
Proof. exact merge_assoc. Qed.
Print Assumptions C49_merge_associative.
(** Outputs of odeint can be merged exactly if they ended with SUCCESS: the others have uninitialised fields. *)
Theorem C49_only_successes_can_be_merged :
  forall (T : Type) (HS : Scalar T) (HL : LinAlg T) (HE : Env T) (St : Type) (F : functor T St) fuel t0 t1 y0 opts oo m dt w w' (sol other : irk_output T),
  irk_odeint fuel F t0 t1 y0 opts oo m dt w = (w', Ok sol) ->
  (io_status sol <> SUCCESS -> merge_rk_output sol other = Err EUB /\ merge_rk_output other sol = Err EUB) /\
  (io_status sol = SUCCESS -> exists c, merge_rk_output sol sol = Ok c).
Proof. exact (fun T HS HL HE St => @irk_stopped_unmerged T HS HL HE St). Qed.
Print Assumptions C49_only_successes_can_be_merged.
(** Merging a run from t0 to t1 with one from t1 to t2: times do not decrease, and t1 appears twice. *)
Theorem C49_merged_runs_repeat_the_junction :
  forall (HL : LinAlg R) (HE : Env R) (St : Type) (F1 F2 : functor R St) fuel1 fuel2 t0 t1 t2 y0 y1 opts1 opts2 oo m1 m2 dt1 dt2 w1 w1' w2 w2' sol1 sol2 sol,
  t0 < t1 -> t1 < t2 -> 0 < dt1 -> 0 < dt2 -> store_in_vectors oo = true -> output_interval oo = 1%Z ->
  irk_odeint fuel1 F1 t0 t1 y0 opts1 oo m1 dt1 w1 = (w1', Ok sol1) -> irk_odeint fuel2 F2 t1 t2 y1 opts2 oo m2 dt2 w2 = (w2', Ok sol2) ->
  merge_rk_output sol1 sol2 = Ok sol ->
  StronglySorted Rle (io_t_vals sol) /\ hd 0 (io_t_vals sol) = t0 /\ last (io_t_vals sol) 0 = t2 /\
  exists l l', io_t_vals sol = l ++ [t1; t1] ++ l'.
Proof. exact (fun HL HE St => @merged_times HL HE St). Qed.
Print Assumptions C49_merged_runs_repeat_the_junction.
(** (attempts, fun_evals of the first run only, entries, status) of a merged pair of runs; the second pair cannot be merged: *)
Example C49_example :
  ig_merged (ig_run false true (-1) 5 1 RADAU_IIA_53 (ig_both 1)) (ig_run false true (-1) 5 1 RADAU_IIA_32 (ig_both 2)) = Some (50, 198, 23, SUCCESS)%nat /\
  ig_merged (ig_run false true (-1) 5 1 RADAU_IIA_53 (ig_both 1)) (ig_run false true 2 5 2 LOBATTO_IIIC_43 (ig_both 1)) = None.
Proof. exact ig_merges. Qed.

(** C50.  The error estimates: dt times what formula 8.19 of Hairer and Wanner gives. *)
Theorem C50_irk_error_estimate_extra_dt :
  forall (LA : LinAlg R) (HP : ExactProducts LA) (HX : ExactSolve LA) (HLU : ExactLU LA) (HI : ExactInverse LA) (HE : Env R) (St : Type)
    (F : functor R St) f, computes F f -> jac_matrices F ->
  forall fuel t0 t1 y0 opts oo m dt w w' sol, (ndebug = false \/ (t0 < t1 /\ 0 < dt)) ->
  irk_odeint fuel F t0 t1 y0 opts oo m dt w = (w', Ok sol) ->
  exists sc atts, irk_get_coefficients m = Ok sc /\ records t0 y0 oo atts sol /\ ichained t0 y0 atts /\
    forall x, In x (ended Accepted atts) ->
    let n := length y0 in let s := length (sc_b sc) in let a := mfun (sc_A sc) in let h := ia_dt x in
    exists Y d d2 J e0 e, stage_weights s a (vfun (sc_b sc)) d /\ stage_weights s a (vfun (sc_b2 sc)) d2 /\ jac_answers F (ia_t x) (ia_y x) J /\
      (forall p, (p < n)%nat -> ventry (ia_yn x) p = ventry (ia_y x) p + weighted n s d Y p) /\
      let diff p := weighted n s d2 Y p - weighted n s d Y p in
      estimate_of n (sc_gamma sc) h J (f (ia_t x) (ia_y x)) diff e0 /\ ia_est x = map (Rmult h) e /\
      (e = e0 \/ estimate_of n (sc_gamma sc) h J (f (ia_t x) (vtab n (fun p => ventry (ia_y x) p + h * ventry e0 p))) diff e) /\
      ia_err x = Rmax (1 / 100000000000000000) (rms_error n (io_abs_tol opts) (io_rel_tol opts) (ia_y x) (ia_yn x) (map (Rmult h) e)).
Proof. exact (fun LA HP HX HLU HI HE St => @irk_estimates LA HP HX HLU HI HE St). Qed.
Print Assumptions C50_irk_error_estimate_extra_dt.
Example C50_example : computes (it_F cos) (it_f cos) /\ jac_matrices (it_F cos) /\
  forall m, In m implicit_runnable -> exists fuel w' sol, @irk_odeint R RScalar choice_LA it_E unit fuel (it_F cos) 0 2 [1; 2] (it_opts 1000) output_options_default m (1 / 10) (World tt []) = (w', Ok sol).
Proof. split; [apply it_computes|]. split; [apply it_matrices|]. intros m Hm. exact (it_run cos it_cos m [1; 2] Hm eq_refl). Qed.

(** C72.  The step size controller. *)
Theorem C72_irk_step_size_controller :
  forall (LA : LinAlg R) (HP : ExactProducts LA) (HX : ExactSolve LA) (HLU : ExactLU LA) (HI : ExactInverse LA) (HE : Env R) (St : Type)
    (F : functor R St) f, computes F f -> jac_matrices F ->
  forall fuel t0 t1 y0 opts oo m dt w w' sol, (ndebug = false \/ (t0 < t1 /\ 0 < dt)) ->
  irk_odeint fuel F t0 t1 y0 opts oo m dt w = (w', Ok sol) ->
  exists atts, records t0 y0 oo atts sol /\ ichained t0 y0 atts /\
    Forall (fun x => 0 < ia_dt x <= t1 - ia_t x) atts /\
    (forall a, nth_error atts 0 = Some a -> ia_dt a = Rmin dt (t1 - t0)) /\
    consecutive (fun a b =>
      match ia_out a with
      | NewtonFailed => ia_dt b = Rmin (7 / 10 * ia_dt a) (t1 - ia_t b)
      | TooInaccurate => ia_dt b <= 9 / 10 * ia_dt a /\ (0 < io_max_dt opts -> ia_dt b <= io_max_dt opts)
      | Accepted => ia_dt b <= 72 / 10 * ia_dt a /\ (0 < io_max_dt opts -> ia_dt b <= io_max_dt opts)
      end) atts.
Proof. exact (fun LA HP HX HLU HI HE St => @irk_controller LA HP HX HLU HI HE St). Qed.
Print Assumptions C72_irk_step_size_controller.
Example C72_example : computes (it_F cos) (it_f cos) /\ jac_matrices (it_F cos) /\
  forall m, In m implicit_runnable -> exists fuel w' sol, @irk_odeint R RScalar choice_LA it_E unit fuel (it_F cos) 0 2 [1; 2] (it_opts 1000) output_options_default m (1 / 10) (World tt []) = (w', Ok sol).
Proof. split; [apply it_computes|]. split; [apply it_matrices|]. intros m Hm. exact (it_run cos it_cos m [1; 2] Hm eq_refl). Qed.
