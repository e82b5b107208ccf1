(** Property theorems about the root finders of newton.hpp (C51-C58, C70, C71).

    [newton_iterate F x opts stats quiet s] runs the model of newton::newton_iterate on the system [F] from the initial
    guess [x]; [(s', Ok (x', st, pr))] means that it returned [x'] with [stats = st] after printing [pr] progress
    reports.  [nlogged F] is [F] with every answered call written down; the log of a run therefore shows the points
    visited and the answers. *)
From Coq Require Import Reals Lra.
From Coquelicot Require Import Coquelicot.
From Verif Require Import Model.Base Model.Scalar Model.LinAlg Model.Newton.
From Verif Require Import Spec.Sums Spec.ErkSpec Spec.NewtonSpec Spec.JacobianSpec.
From Verif Require Import Proofs.SumsProofs Proofs.RVec Proofs.NewtonProofs Proofs.NewtonTotal Proofs.NewtonReal Proofs.NewtonFinal
  Proofs.NewtonCounts Proofs.BroydenReal Proofs.JacobianProofs Proofs.JacobianReal Proofs.ChoiceInstance Proofs.ErkExamples Proofs.NewtonExamples.
Local Open Scope R_scope.

(** C51.  Status, iteration count and return value, for every arithmetic and every system. *)
Theorem C51_newton_status :
  forall (T : Type) (HS : Scalar T) (HL : LinAlg T) (HE : Env T) (St : Type) (F : nfunctor T St) x opts stats quiet s s' x' st pr,
  newton_iterate F x opts stats quiet s = (s', Ok (x', st, pr)) ->
  (0 <= st_iters st <= Z.max 0 (o_maxit opts))%Z /\
  (st_conv st = SUCCESS \/ st_conv st = MAXIT_EXCEEDED \/ st_conv st = GENERIC_ERROR) /\
  (st_conv st <> SUCCESS -> x' = x) /\
  (st_conv st = MAXIT_EXCEEDED -> st_iters st = o_maxit opts /\ sfinite (st_res st) = true) /\
  (st_conv st = SUCCESS -> sfinite (st_res st) = true /\
     ((0 < st_iters st < o_maxit opts)%Z \/ (o_maxit opts < 0 /\ st_iters st = 0)%Z /\ x' = x)).
Proof. exact (fun T HS HL HE St => @newton_summary T HS HL HE St). Qed.
Print Assumptions C51_newton_status.
(** Converging, running out of iterations, failing. *)
Example C51_example :
  ng_summary (ng_run (ng_opts 50 10 false false)) = Some (SUCCESS, 6%Z, 7%nat, 7%nat, true) /\
  ng_summary (ng_run (ng_opts 3 1 true true)) = Some (MAXIT_EXCEEDED, 3%Z, 4%nat, 4%nat, false) /\
  ng_summary (ng_run_id (@sZ f64 ex_S 1)) = Some (GENERIC_ERROR, 0%Z, 1%nat, 1%nat, false).
Proof. exact (conj ng_ok (conj ng_max ng_id1)). Qed.

(** The whole run: the points visited are v0 (the initial guess) and V; the log consists of exactly the calls at these
    points; each is reached from the one before along its direction; only the last direction can have been below
    dx_delta; the call ends because that happened, because maxit iterations were used, or because the linear solver
    threw. *)
Theorem C51_newton_trace :
  forall (T : Type) (HS : Scalar T) (HL : LinAlg T) (HE : Env T) (St : Type) (F : nfunctor T St) x opts stats quiet s l s' l' x' st pr,
  newton_iterate (nlogged F) x opts stats quiet (s, l) = ((s', l'), Ok (x', st, pr)) ->
  exists v0 V, let vl := last V v0 in
    v_x v0 = x /\ l' = l ++ newton_log (o_refresh_jac opts >? 0)%Z v0 V /\
    consecutive (newton_move (o_refresh_jac opts >? 0)%Z (o_limit_step opts)) (v0 :: V) /\
    st_iters st = Z.of_nat (length V) /\ (length V <= Z.to_nat (o_maxit opts))%nat /\
    (forall v, In v (removelast V) -> converged opts v = false) /\
    pr = (if quiet then O else Datatypes.S (length V)) /\
    ((x' = x /\ st = Status GENERIC_ERROR (st_res stats) (Z.of_nat (length V)) (st_eta_final stats) /\
      (length V < Z.to_nat (o_maxit opts))%nat /\ (forall v, In v V -> converged opts v = false) /\
      (o_precondition opts = false -> exists e, solve (v_J vl) (v_r vl) = Err (EThrow e)))
     \/
     (st_res st = ssqrt (la_dot (v_r vl) (v_r vl)) /\ st_eta_final st = sZ 1 /\
      st_conv st = (if negb (sfinite (st_res st)) then GENERIC_ERROR
                    else if (Z.of_nat (length V) =? o_maxit opts)%Z then MAXIT_EXCEEDED else SUCCESS) /\
      x' = (if (st_conv st =? SUCCESS)%Z then v_x vl else x) /\
      ((length V < Z.to_nat (o_maxit opts))%nat -> V <> [] /\ converged opts vl = true))).
Proof. exact (fun T HS HL HE St => @newton_status T HS HL HE St). Qed.
Print Assumptions C51_newton_trace.
Example C51_trace_example : exists w x st pr, ng_run (ng_opts 50 10 false false) = (w, Ok (x, st, pr)) /\ st_conv st = SUCCESS /\ st_iters st = 6%Z.
Proof. destruct (ng_summary_ok _ _ _ _ _ _ ng_ok) as (w & x & st & pr & H1 & H2 & H3 & _). exists w, x, st, pr. auto. Qed.

(** In exact arithmetic every update from a point with invertible matrix is a Newton step: a solution of J e = -F(x),
    damped and limited as the options say. *)
Theorem C51_newton_steps_exact :
  forall (HE : Env R) (LA : LinAlg R) (HP : ExactProducts LA) (HX : ExactSolve LA) (St : Type) (F : nfunctor R St) x opts stats quiet s l s' l' x' st pr,
  (o_precondition opts = true -> junk = 0) ->
  newton_iterate (nlogged F) x opts stats quiet (s, l) = ((s', l'), Ok (x', st, pr)) ->
  exists v0 V, v_x v0 = x /\ l' = l ++ newton_log (o_refresh_jac opts >? 0)%Z v0 V /\
    (st_conv st = SUCCESS -> x' = v_x (last V v0)) /\
    consecutive (fun v v' => invertible (v_J v) -> newton_step opts v v') (v0 :: V).
Proof. exact (fun HE LA HP HX St => @newton_steps LA HP HE HX St). Qed.
Print Assumptions C51_newton_steps_exact.
Example C51_steps_example : forall refresh pre, exists s' l' x' st pr,
  @newton_iterate R RScalar choice_LA (nr_E 0) _ (nlogged nr_sys) [7; -2] (nr_opts (1/2) 50 refresh pre true) status_default true (tt, []) =
    ((s', l'), Ok (x', st, pr)).
Proof.
  intros refresh pre. destruct (newton_returns (HE := nr_E 0) (HL := choice_LA) (nlogged nr_sys) 2) with (x := [7; -2]) (opts := nr_opts (1/2) 50 refresh pre true)
    (stats := @status_default R RScalar) (quiet := true) (s := (tt, @nil (ncall R))) as ([s' l'] & [[x' st] pr] & H).
  - intros y [s l] Hy. do 2 eexists. split; reflexivity.
  - intros y [s l] Hy. do 2 eexists. split; reflexivity.
  - reflexivity.
  - exists s', l', x', st, pr. exact H.
Qed.

(** C52.  The options act as documented flags except refresh_jac, of which only the sign matters. *)
Theorem C52_newton_dispatch :
  forall (T : Type) (HS : Scalar T) (HL : LinAlg T) (HE : Env T) (St : Type) (F : nfunctor T St) x opts stats quiet s,
  newton_iterate F x opts stats quiet s =
  newton_iterate_impl F (if (o_refresh_jac opts >? 0)%Z then 1 else 0)%Z (o_precondition opts) (o_time_internals opts) (o_limit_step opts) quiet x opts stats s.
Proof. exact (fun T HS HL HE St => @dispatch T HS HL HE St). Qed.
Print Assumptions C52_newton_dispatch.
Theorem C52_refresh_interval_ignored :
  forall (T : Type) (HS : Scalar T) (HL : LinAlg T) (HE : Env T) (St : Type) (F : nfunctor T St) x opts opts' stats quiet s,
  o_dx_delta opts' = o_dx_delta opts -> o_maxit opts' = o_maxit opts -> o_max_step opts' = o_max_step opts ->
  o_precondition opts' = o_precondition opts -> o_limit_step opts' = o_limit_step opts ->
  (o_refresh_jac opts' > 0 <-> o_refresh_jac opts > 0)%Z ->
  newton_iterate F x opts' stats quiet s = newton_iterate F x opts stats quiet s.
Proof. exact (fun T HS HL HE St => @options_equivalent T HS HL HE St). Qed.
Print Assumptions C52_refresh_interval_ignored.
(** The branch that uses stored factors is not reachable through newton_iterate. *)
Theorem C52_stored_factors_unused : forall (T : Type) (opts : options T), store_LU (if (o_refresh_jac opts >? 0)%Z then 1 else 0)%Z = false.
Proof. exact (fun T => @flag_store T). Qed.
Print Assumptions C52_stored_factors_unused.
Example C52_example :
  ng_summary (ng_run (ng_opts 50 10 false false)) = Some (SUCCESS, 6%Z, 7%nat, 7%nat, true) /\
  ng_summary (ng_run (ng_opts 50 0 false false)) = Some (SUCCESS, 25%Z, 26%nat, 1%nat, true).
Proof. exact (conj ng_ok ng_frozen). Qed.

(** C53.  Linear systems: the first iterate is the root; at most one more iteration follows. *)
Theorem C53_newton_linear_systems :
  forall (HE : Env R) (LA : LinAlg R) (HP : ExactProducts LA) (HX : ExactSolve LA) (HN : ExactNorm LA) (St : Type) (F : nfunctor R St)
    A b x opts stats quiet,
  linear_system F A b -> mat_wf A -> invertible A -> length b = nrows A -> length x = nrows A ->
  o_limit_step opts = false -> o_max_step opts <= 0 -> 0 < o_dx_delta opts -> (2 < o_maxit opts)%Z ->
  (o_precondition opts = true -> junk = 0) ->
  forall s l, exists s' v0 V x' st pr,
    newton_iterate (nlogged F) x opts stats quiet (s, l) = ((s', l ++ newton_log (o_refresh_jac opts >? 0)%Z v0 V), Ok (x', st, pr)) /\
    v_x v0 = x /\ (forall v, In v V -> is_solution A (v_x v) b) /\
    (length V = 1 \/ length V = 2)%nat /\ st_iters st = Z.of_nat (length V) /\
    st_conv st = SUCCESS /\ is_solution A x' b /\ st_res st = 0.
Proof. exact (fun HE LA HP HX HN St => @newton_linear LA HP HE HX HN St). Qed.
Print Assumptions C53_newton_linear_systems.
Example C53_example : ExactProducts choice_LA /\ ExactSolve choice_LA /\ ExactNorm choice_LA /\
  linear_system nr_sys nr_M nr_b /\ mat_wf nr_M /\ invertible nr_M /\ length nr_b = nrows nr_M.
Proof. exact (conj _ (conj _ (conj _ (conj nr_linear (conj nr_wf (conj nr_inv eq_refl)))))). Qed.
(** The hypothesis on [junk] is needed: the off-diagonal entries of the preconditioner are never set.  With other
    contents of that memory the same linear system is not solved at all. *)
Theorem C53_preconditioner_uninitialised :
  ng_summary (ng_run_id (@sZ f64 ex_S 0)) = Some (SUCCESS, 6%Z, 7%nat, 7%nat, true) /\
  ng_summary (ng_run_id (@sZ f64 ex_S 1)) = Some (GENERIC_ERROR, 0%Z, 1%nat, 1%nat, false).
Proof. exact (conj ng_id0 ng_id1). Qed.
Print Assumptions C53_preconditioner_uninitialised.

(** C54.  max_step bounds the Newton update. *)
Theorem C54_newton_max_step :
  forall (HE : Env R) (LA : LinAlg R) (HP : ExactProducts LA) (St : Type) (F : nfunctor R St) x opts stats quiet s l s' l' x' st pr,
  0 < o_max_step opts ->
  newton_iterate (nlogged F) x opts stats quiet (s, l) = ((s', l'), Ok (x', st, pr)) ->
  exists v0 V, v_x v0 = x /\ l' = l ++ newton_log (o_refresh_jac opts >? 0)%Z v0 V /\
    consecutive (fun v v' => norm2 (vminus (v_x v') (v_x v)) <= o_max_step opts) (v0 :: V).
Proof. exact (fun HE LA HP St => @newton_max_step LA HP HE St). Qed.
Print Assumptions C54_newton_max_step.
(** It does not bound the Broyden update: limited updates have length m / lambda, with the damping factor lambda < 1
    whenever the residual is not zero. *)
Theorem C54_broyden_update_length :
  forall (HE : Env R) (LA : LinAlg R) (HP : ExactProducts LA) (St : Type) (F : nfunctor R St) x opts stats quiet s l s' l' x' st pr,
  broyden_iterate (nlogged F) x opts stats quiet (s, l) = ((s', l'), Ok (x', st, pr)) ->
  exists v0 V, v_x v0 = x /\ v_J v0 = eye (length x) /\ l' = l ++ broyden_log v0 V /\ x' = v_x (last V v0) /\
    (o_max_step opts <= 0 -> consecutive (fun v v' => vminus (v_x v') (v_x v) = broyden_full_step v) (v0 :: V)) /\
    (0 < o_max_step opts -> consecutive (broyden_update_length (o_max_step opts)) (v0 :: V)).
Proof. exact (fun HE LA HP St => @broyden_lengths LA HP HE St). Qed.
Print Assumptions C54_broyden_update_length.
Theorem C54_broyden_max_step_refuted :
  forall (HE : Env R) (LA : LinAlg R) (HP : ExactProducts LA) (St : Type) (F : nfunctor R St) x opts stats quiet s l s' l' x' st pr,
  broyden_iterate (nlogged F) x opts stats quiet (s, l) = ((s', l'), Ok (x', st, pr)) -> (1 < o_maxit opts)%Z -> 0 < o_max_step opts ->
  exists r x1 r1 l1, l' = l ++ NFun x r :: NFun x1 r1 :: l1 /\
    (o_max_step opts < norm2 r / (1 + norm2 r * norm2 r) ->
     norm2 (vminus x1 x) = o_max_step opts * sqrt (1 + norm2 r * norm2 r) /\ o_max_step opts < norm2 (vminus x1 x)).
Proof. exact (fun HE LA HP St => @broyden_first_update LA HP HE St). Qed.
Print Assumptions C54_broyden_max_step_refuted.
(** x + 1 from x = 0 with max_step = 1/4: |r| = 1, and 1/4 < 1/2. *)
Example C54_example : exists s' l' x' st pr,
  @broyden_iterate R RScalar choice_LA _ (nlogged nr_one) [0] (nr_opts (1/4) 50 1 false false) status_default true (tt, []) = ((s', l'), Ok (x', st, pr)) /\
  n_fun nr_one [0] tt = (tt, Ok [0 + 1]) /\ 1/4 < norm2 [0 + 1] / (1 + norm2 [0 + 1] * norm2 [0 + 1]).
Proof.
  destruct (broyden_returns (HL := choice_LA) (nlogged nr_one) 1) with (x := [0]) (opts := nr_opts (1/4) 50 1 false false)
    (stats := @status_default R RScalar) (quiet := true) (s := (tt, @nil (ncall R))) as ([s' l'] & [[x' st] pr] & H).
  - intros y [s l] Hy. do 2 eexists. split; [reflexivity|]. rewrite map_length. exact Hy.
  - reflexivity.
  - exists s', l', x', st, pr. split; [exact H|]. split; [reflexivity|]. unfold norm2, ventry. simpl.
    replace (0 + (0 + 1) * (0 + 1)) with 1 by ring. rewrite sqrt_1. lra.
Qed.

(** C55.  Broyden's method always reports SUCCESS, for every arithmetic and every system. *)
Theorem C55_broyden_always_success :
  forall (T : Type) (HS : Scalar T) (HL : LinAlg T) (St : Type) (F : nfunctor T St) x opts stats quiet s s' x' st pr,
  broyden_iterate F x opts stats quiet s = (s', Ok (x', st, pr)) ->
  st_conv st = SUCCESS /\ (1 <= st_iters st <= Z.max 1 (o_maxit opts))%Z /\
  ((o_maxit opts <= 1)%Z -> x' = x /\ st_iters st = 1%Z).
Proof. exact (fun T HS HL St => @broyden_status T HS HL St). Qed.
Print Assumptions C55_broyden_always_success.
(** In particular with maxit <= 1: any guess is returned as a root of any system. *)
Theorem C55_broyden_success_without_iterating :
  forall (T : Type) (HS : Scalar T) (HL : LinAlg T) (St : Type) (F : nfunctor T St) x opts stats quiet s s' r,
  (o_maxit opts <= 1)%Z -> n_fun F x s = (s', Ok r) ->
  broyden_iterate F x opts stats quiet s = (s', Ok (x, Status SUCCESS (ssqrt (la_dot r r)) 1 (st_eta_final stats), O)).
Proof. exact (fun T HS HL St => @broyden_maxit_one T HS HL St). Qed.
Print Assumptions C55_broyden_success_without_iterating.
(** Stopped at maxit = 3 far from a root, and converged: the same status. *)
Example C55_example :
  ng_summary (ng_broyden (ng_opts 3 1 true true)) = Some (SUCCESS, 3%Z, 3%nat, 0%nat, true) /\
  ng_summary (ng_broyden (ng_opts 200 1 true true)) = Some (SUCCESS, 10%Z, 10%nat, 0%nat, true).
Proof. exact (conj ng_bmax ng_bok). Qed.

(** C56.  The secant condition (exact arithmetic). *)
Theorem C56_broyden_secant_condition :
  forall (HE : Env R) (LA : LinAlg R) (HP : ExactProducts LA) (St : Type) (F : nfunctor R St) x opts stats quiet s l s' l' x' st pr,
  broyden_iterate (nlogged F) x opts stats quiet (s, l) = ((s', l'), Ok (x', st, pr)) ->
  exists v0 V, v_x v0 = x /\ v_J v0 = eye (length x) /\ l' = l ++ broyden_log v0 V /\
    st_iters st = (1 + Z.of_nat (length V))%Z /\
    (o_max_step opts <= 0 -> consecutive (fun v v' => vminus (v_x v') (v_x v) = broyden_full_step v) (v0 :: V)) /\
    consecutive (fun v v' => secant_denominator v v' <> 0 -> secant_condition v v') (v0 :: V).
Proof. exact (fun HE LA HP St => @broyden_secants LA HP HE St). Qed.
Print Assumptions C56_broyden_secant_condition.
(** A step of x + 1 from 0 to -1/2: the denominator is 1/4. *)
Example C56_example : secant_denominator (Visit [0] [1] (eye 1) []) (Visit [-1/2] [1/2] (eye 1) []) <> 0.
Proof. unfold secant_denominator, mentry, ventry. simpl. lra. Qed.

(** C57.  verify_jacobi_matrix never answers false, in any arithmetic in which sqrt(0) is not greater than 1e-12. *)
Theorem C57_verify_jacobi_never_false :
  forall (T : Type) (HS : Scalar T) (HL : LinAlg T) (St : Type) (F : nfunctor T St), (ssqrt (sZ 0) >?. slit 1 (-12))%sc = false ->
  forall y s w b, verify_jacobi_matrix F y s = (w, Ok b) -> b = true.
Proof. exact (fun T HS HL St F H => @verify_true T HS St F H). Qed.
Print Assumptions C57_verify_jacobi_never_false.
Theorem C57_verify_jacobi_accepts :
  forall (T : Type) (HS : Scalar T) (HL : LinAlg T) (St : Type) (F : nfunctor T St), (ssqrt (sZ 0) >?. slit 1 (-12))%sc = false ->
  forall y s, (forall x s, length x = length y -> exists s' v, n_fun F x s = (s', Ok v) /\ length v = length y) ->
  (forall s, exists s' A, n_jac F y s = (s', Ok A) /\ mat_wf A /\ nrows A = length y /\ ncols A = length y) ->
  exists s', verify_jacobi_matrix F y s = (s', Ok true).
Proof. exact (fun T HS HL St F H => @verify_returns T HS St F H). Qed.
Print Assumptions C57_verify_jacobi_accepts.
(** Doubles qualify; and the zero matrix passes as Jacobi matrix of the circle and the hyperbola. *)
Example C57_example :
  (@sltb f64 ex_S (@slit f64 ex_S 1 (-12)) (@ssqrt f64 ex_S (@sZ f64 ex_S 0))) = false /\
  snd (@verify_jacobi_matrix f64 ex_S _ (NFunctor (n_fun ng_sys) (fun x s => (s, Ok (@mzeros f64 ex_S 2 2)))) [@sZ f64 ex_S 3; @sZ f64 ex_S 1] tt) = Ok true.
Proof. split; vm_compute; reflexivity. Qed.

(** C58.  The finite-difference Jacobi matrix: which points are evaluated and what is returned; *)
Theorem C58_approx_jacobi_central_differences :
  forall (T : Type) (HS : Scalar T) (St : Type) (F : nfunctor T St) (f : list T -> list T),
  (forall x s, snd (n_fun F x s) = Ok (f x)) ->
  forall y h s l, (forall x, length x = length y -> length (f x) = length y) ->
  exists s', approx_jacobi_matrix (nlogged F) y h (s, l) =
    ((s', l ++ map (fun x => NFun x (f x)) (difference_points y h)), Ok (central_differences f y h)).
Proof. exact (fun T HS St => @approx_run T HS St). Qed.
Print Assumptions C58_approx_jacobi_central_differences.
(** ... exact on quadratic maps; *)
Theorem C58_exact_for_quadratic_maps :
  forall c l q y h i j, h <> 0 -> (i < length y)%nat -> (j < length y)%nat ->
  mentry (central_differences (quadratic_map (length y) c l q) y h) i j = quadratic_partial (length y) l q y i j.
Proof. exact quadratic_exact. Qed.
Print Assumptions C58_exact_for_quadratic_maps.
(** ... second order otherwise. *)
Theorem C58_second_order :
  forall f y h i j M, h <> 0 -> (i < length y)%nat -> (j < length y)%nat ->
  (forall t k, (k <= 3)%nat -> ex_derive_n (along f y i j) k t) ->
  (forall t, ventry y j - Rabs h <= t <= ventry y j + Rabs h -> Rabs (Derive_n (along f y i j) 3 t) <= M) ->
  Rabs (mentry (central_differences f y h) i j - Derive (along f y i j) (ventry y j)) <= h * h * M / 6.
Proof. exact second_order. Qed.
Print Assumptions C58_second_order.
(** A quadratic map is three times differentiable along every coordinate; here x |-> x^2 in one dimension. *)
Example C58_example : forall t k, (k <= 3)%nat -> ex_derive_n (along (fun y => map (fun a => a * a) y) [5] 0 0) k t.
Proof.
  intros t k Hk. apply (ex_derive_n_ext (fun u => u * u)); [intros u; reflexivity|].
  destruct k as [|k]; [exact I|]. apply (ex_derive_n_ext (fun u => u ^ 2)); [intros; ring|]. apply ex_derive_n_pow.
Qed.

(** C70.  The root finders return for every system that keeps the dimension, in any arithmetic, for all options: no
    exception escapes and no iteration goes on for ever. *)
Theorem C70_newton_returns :
  forall (T : Type) (HS : Scalar T) (HL : LinAlg T) (HE : Env T) (St : Type) (F : nfunctor T St) n,
  (forall y s, length y = n -> exists s' v, n_fun F y s = (s', Ok v) /\ length v = n) ->
  (forall y s, length y = n -> exists s' A, n_jac F y s = (s', Ok A) /\ ncols A = n) ->
  forall x opts stats quiet s, length x = n -> exists w' out, newton_iterate F x opts stats quiet s = (w', Ok out).
Proof. exact (fun T HS HL HE St => @newton_returns T HS HL HE St). Qed.
Print Assumptions C70_newton_returns.
Theorem C70_broyden_returns :
  forall (T : Type) (HS : Scalar T) (HL : LinAlg T) (St : Type) (F : nfunctor T St) n,
  (forall y s, length y = n -> exists s' v, n_fun F y s = (s', Ok v) /\ length v = n) ->
  forall x opts stats quiet s, length x = n -> exists w' out, broyden_iterate F x opts stats quiet s = (w', Ok out).
Proof. exact (fun T HS HL St => @broyden_returns T HS HL St). Qed.
Print Assumptions C70_broyden_returns.
Example C70_example : forall (y : list R) s, length y = 2%nat -> exists s' v, n_fun nr_sys y s = (s', Ok v) /\ length v = 2%nat.
Proof. intros y s Hy. do 2 eexists. split; reflexivity. Qed.

(** C71.  How often the system is called. *)
Theorem C71_newton_calls :
  forall (T : Type) (HS : Scalar T) (HL : LinAlg T) (HE : Env T) (St : Type) (F : nfunctor T St) x opts stats quiet s l s' l' x' st pr,
  newton_iterate (nlogged F) x opts stats quiet (s, l) = ((s', l'), Ok (x', st, pr)) ->
  exists c, l' = l ++ c /\ Z.of_nat (count_nfun c) = (st_iters st + 1)%Z /\
    Z.of_nat (count_njac c) = (if (o_refresh_jac opts >? 0)%Z then st_iters st + 1 else 1)%Z.
Proof. exact (fun T HS HL HE St => @newton_calls T HS HL HE St). Qed.
Print Assumptions C71_newton_calls.
Theorem C71_broyden_calls :
  forall (T : Type) (HS : Scalar T) (HL : LinAlg T) (St : Type) (F : nfunctor T St) x opts stats quiet s l s' l' x' st pr,
  broyden_iterate (nlogged F) x opts stats quiet (s, l) = ((s', l'), Ok (x', st, pr)) ->
  exists c, l' = l ++ c /\ Z.of_nat (count_nfun c) = st_iters st /\ count_njac c = 0%nat.
Proof. exact (fun T HS HL St => @broyden_calls T HS HL St). Qed.
Print Assumptions C71_broyden_calls.
Example C71_example :
  ng_summary (ng_run (ng_opts 50 0 false false)) = Some (SUCCESS, 25%Z, 26%nat, 1%nat, true) /\
  ng_summary (ng_broyden (ng_opts 200 1 true true)) = Some (SUCCESS, 10%Z, 10%nat, 0%nat, true).
Proof. exact (conj ng_frozen ng_bok). Qed.
