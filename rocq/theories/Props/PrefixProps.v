(** Properties C118-C121: what a limit, another mesh, an interruption and another final time do to a run. *)
From Coq Require Import Reals.
From Verif Require Import Model.Base Model.Scalar Model.LinAlg Model.Enums Model.Options Model.Coeffs Model.Erk Model.Irk Model.Multistep.
From Verif Require Import Spec.Sums Spec.Observe Spec.RkSpec Spec.ErkSpec Spec.Methods Spec.Prefix.
From Verif Require Import Proofs.ExactInstance Proofs.ErkExamples Proofs.IrkExamples Proofs.MultistepExamples.
From Verif Require Import Proofs.Truncate Proofs.TruncateMs Proofs.Mesh Proofs.PrefixExamples.

(** C118.  A step limit cuts a run and changes nothing else: with a weaker limit the very same thing happens, or the limited
    run returned with ERROR_MAX_STEPS_EXCEEDED and everything it recorded and wrote comes first in the other run. *)
Theorem C118_erk_step_limit_cuts :
  forall (T : Type) (HS : Scalar T) (HL : LinAlg T) (HE : Env T) (St : Type) (F : functor T St) fuel t0 t1 y0 opts oo m dt w n1 n2,
  weaker_limit n1 n2 ->
  let run n := erk_odeint fuel F t0 t1 y0 (erk_limited opts n) oo m dt w in
  run n1 = run n2 \/
  exists w1 sol1, run n1 = (w1, Ok sol1) /\ eo_status sol1 = ERROR_MAX_STEPS_EXCEEDED /\ extends (w_out w1) (w_out (fst (run n2))) /\
    forall sol2, snd (run n2) = Ok sol2 -> erk_continues sol1 sol2.
Proof. exact (fun T HS HL HE St => @erk_truncated T HS HL HE St). Qed.
Print Assumptions C118_erk_step_limit_cuts.
Theorem C118_irk_step_limit_cuts :
  forall (T : Type) (HS : Scalar T) (HL : LinAlg T) (HE : Env T) (St : Type) (F : functor T St) fuel t0 t1 y0 opts oo m dt w n1 n2,
  weaker_limit n1 n2 ->
  let run n := irk_odeint fuel F t0 t1 y0 (irk_limited opts n) oo m dt w in
  run n1 = run n2 \/
  exists w1 sol1, run n1 = (w1, Ok sol1) /\ io_status sol1 = ERROR_MAX_STEPS_EXCEEDED /\ extends (w_out w1) (w_out (fst (run n2))) /\
    forall sol2, snd (run n2) = Ok sol2 -> irk_continues sol1 sol2.
Proof. exact (fun T HS HL HE St => @irk_truncated T HS HL HE St). Qed.
Print Assumptions C118_irk_step_limit_cuts.
(** in doubles: 4 of 7 recorded times, and 4 of 6 *)
Example C118_example :
  ex_summary (pe_erk 2) = Some (ERROR_MAX_STEPS_EXCEEDED, 5, 1, 25, 4, 4)%nat /\ ex_summary (pe_erk 5) = Some (ERROR_MAX_STEPS_EXCEEDED, 9, 2, 49, 7, 8)%nat /\
  ig_summary (pe_irk 2) = Some (ERROR_MAX_STEPS_EXCEEDED, 12, 8, 0, 169, 52, 4, 3)%nat /\ ig_summary (pe_irk (-1)) = Some (SUCCESS, 13, 8, 0, 198, 59, 6, 5)%nat /\
  weaker_limit 2 5 /\ weaker_limit 2 (-1).
Proof. exact (conj (proj1 pe_erk_runs) (conj (proj2 pe_erk_runs) (conj (proj1 pe_irk_runs) (conj (proj2 pe_irk_runs) pe_limits)))). Qed.

Local Open Scope R_scope.
(** C119.  The recorded times determine the recorded states: two explicit runs of one method for the same right-hand side that
    agree in a state and in the times that follow agree in the states and stages that follow.  Step sizes, tolerances, rejected
    steps, options, outputs and initial values make no other difference. *)
Theorem C119_erk_mesh_determines_solution :
  forall (E1 E2 : Env R) (L1 L2 : LinAlg R) (X1 : ExactProducts L1) (X2 : ExactProducts L2) (St1 St2 : Type)
    (F1 : functor R St1) (F2 : functor R St2) f, computes F1 f -> computes F2 f ->
  forall m fuel1 s0 s1 y0 opts1 oo1 dt1 w1 w1' a fuel2 r0 r1 z0 opts2 oo2 dt2 w2 w2' b,
  @erk_odeint R RScalar L1 E1 St1 fuel1 F1 s0 s1 y0 opts1 oo1 m dt1 w1 = (w1', Ok a) ->
  @erk_odeint R RScalar L2 E2 St2 fuel2 F2 r0 r1 z0 opts2 oo2 m dt2 w2 = (w2', Ok b) ->
  forall i j k, (i + k < length (eo_t_vals a))%nat -> (j + k < length (eo_t_vals b))%nat ->
  nth i (eo_y_vals a) [] = nth j (eo_y_vals b) [] ->
  (forall l, (l <= k)%nat -> nth (i + l) (eo_t_vals a) 0 = nth (j + l) (eo_t_vals b) 0) ->
  forall l, (l <= k)%nat ->
    nth (i + l) (eo_y_vals a) [] = nth (j + l) (eo_y_vals b) [] /\
    ((1 <= l)%nat -> nth (i + l) (eo_stages a) [] = nth (j + l) (eo_stages b) []).
Proof. exact (fun E1 E2 L1 L2 X1 X2 St1 St2 => @mesh E1 E2 L1 L2 X1 X2 St1 St2). Qed.
Print Assumptions C119_erk_mesh_determines_solution.
(** for every method and right-hand side: the runs over [0,1] and [0,2] with dt = 1/4 *)
Example C119_example f y m : In m explicit_methods -> preserves_dim f (length y) ->
  exists f1 f3 w1 w3 a c, pe_run f f1 0 1 y m = (w1, Ok a) /\ pe_run f f3 0 2 y m = (w3, Ok c) /\
    (0 + 4 < length (eo_t_vals a))%nat /\ (0 + 4 < length (eo_t_vals c))%nat /\ nth 0 (eo_y_vals a) [] = nth 0 (eo_y_vals c) [] /\
    forall l, (l <= 4)%nat -> nth (0 + l) (eo_t_vals a) 0 = nth (0 + l) (eo_t_vals c) 0.
Proof. exact (pe_mesh f y m). Qed.

(** C120.  Interrupting a fixed-step explicit run at a grid point and resuming from its last state gives the uninterrupted run
    (the junction is recorded twice). *)
Theorem C120_erk_resumes :
  forall (E1 E2 E3 : Env R) (L1 L2 L3 : LinAlg R) (X1 : ExactProducts L1) (X2 : ExactProducts L2) (X3 : ExactProducts L3) (S1 S2 S3 : Type)
    (F1 : functor R S1) (F2 : functor R S2) (F3 : functor R S3) f, computes F1 f -> computes F2 f -> computes F3 f ->
  forall m dt t0 t1 t2 N o1 o2 o3, In m explicit_methods -> 0 < dt -> t1 = t0 + INR N * dt -> (1 <= N)%nat -> t1 < t2 ->
  (eo_adaptive o1 = false /\ eo_adaptive o2 = false /\ eo_adaptive o3 = false) \/ ~ In m explicit_embedded ->
  forall y0 f1 f2 f3 oo1 oo2 oo3 w1 w2 w3 w1' w2' w3' a b c,
  @erk_odeint R RScalar L1 E1 S1 f1 F1 t0 t1 y0 o1 oo1 m dt w1 = (w1', Ok a) -> eo_status a = SUCCESS ->
  @erk_odeint R RScalar L2 E2 S2 f2 F2 t1 t2 (last (eo_y_vals a) y0) o2 oo2 m dt w2 = (w2', Ok b) -> eo_status b = SUCCESS ->
  @erk_odeint R RScalar L3 E3 S3 f3 F3 t0 t2 y0 o3 oo3 m dt w3 = (w3', Ok c) -> eo_status c = SUCCESS ->
  eo_t_vals c = eo_t_vals a ++ tl (eo_t_vals b) /\ eo_y_vals c = eo_y_vals a ++ tl (eo_y_vals b) /\
  tl (eo_stages c) = tl (eo_stages a) ++ tl (eo_stages b).
Proof. exact (fun E1 E2 E3 L1 L2 L3 X1 X2 X3 S1 S2 S3 => @restart E1 E2 E3 L1 L2 L3 X1 X2 X3 S1 S2 S3). Qed.
Print Assumptions C120_erk_resumes.
(** Off the grid: a longer fixed-step run passes through all points of a shorter one but its last. *)
Theorem C120_erk_longer_interval :
  forall (E1 E3 : Env R) (L1 L3 : LinAlg R) (X1 : ExactProducts L1) (X3 : ExactProducts L3) (S1 S3 : Type)
    (F1 : functor R S1) (F3 : functor R S3) f, computes F1 f -> computes F3 f ->
  forall m dt t0 t1 t2 o1 o3, In m explicit_methods -> 0 < dt -> t0 < t1 -> t1 <= t2 ->
  (eo_adaptive o1 = false /\ eo_adaptive o3 = false) \/ ~ In m explicit_embedded ->
  forall y0 f1 f3 oo1 oo3 w1 w3 w1' w3' a c,
  @erk_odeint R RScalar L1 E1 S1 f1 F1 t0 t1 y0 o1 oo1 m dt w1 = (w1', Ok a) -> eo_status a = SUCCESS ->
  @erk_odeint R RScalar L3 E3 S3 f3 F3 t0 t2 y0 o3 oo3 m dt w3 = (w3', Ok c) -> eo_status c = SUCCESS ->
  extends (removelast (eo_t_vals a)) (eo_t_vals c) /\ extends (removelast (eo_y_vals a)) (eo_y_vals c).
Proof. exact (fun E1 E3 L1 L3 X1 X3 S1 S3 => @longer E1 E3 L1 L3 X1 X3 S1 S3). Qed.
Print Assumptions C120_erk_longer_interval.
(** for every method and right-hand side: [0,1], [1,2] and [0,2] with dt = 1/4 *)
Example C120_example f y m : In m explicit_methods -> preserves_dim f (length y) ->
  exists f1 f2 f3 w1 w2 w3 a b c,
    pe_run f f1 0 1 y m = (w1, Ok a) /\ eo_status a = SUCCESS /\
    pe_run f f2 1 2 (last (eo_y_vals a) y) m = (w2, Ok b) /\ eo_status b = SUCCESS /\
    pe_run f f3 0 2 y m = (w3, Ok c) /\ eo_status c = SUCCESS /\ 1 = 0 + INR 4 * (1 / 4).
Proof. exact (pe_restart f y m). Qed.

Local Close Scope R_scope.
Local Open Scope sc_scope.
(** C121.  The final time only decides when a multistep run stops: with a later one the very same thing happens, or everything
    the shorter run recorded comes first in the longer one. *)
Theorem C121_adams_bashforth_final_time_cuts :
  forall (T : Type) (HS : Scalar T) (HL : LinAlg T) (HE : Env T) (St : Type) (F : functor T St) t0 t1 t2 dt,
  (forall t, (t <?. t1) = true -> (t <?. t2) = true) -> (t0 +. dt >?. t1) = false -> (t0 +. dt >?. t2) = false ->
  forall fuel y0 order w, let run t := adams_bashforth fuel F t0 t y0 order dt w in
  run t1 = run t2 \/
  exists w1 sol1, run t1 = (w1, Ok sol1) /\ bo_status sol1 = SUCCESS /\ forall sol2, snd (run t2) = Ok sol2 -> basic_continues sol1 sol2.
Proof. exact (fun T HS HL HE St => @ab_truncated T HS HL HE St). Qed.
Print Assumptions C121_adams_bashforth_final_time_cuts.
Theorem C121_bdf_final_time_cuts :
  forall (T : Type) (HS : Scalar T) (HL : LinAlg T) (HE : Env T) (St : Type) (F : functor T St) t0 t1 t2 dt,
  (forall t, (t <?. t1) = true -> (t <?. t2) = true) -> (t0 +. dt >?. t1) = false -> (t0 +. dt >?. t2) = false ->
  forall fuel y0 order w, let run t := bdf fuel F t0 t y0 order dt w in
  run t1 = run t2 \/
  exists w1 sol1, run t1 = (w1, Ok sol1) /\ bo_status sol1 = SUCCESS /\ forall sol2, snd (run t2) = Ok sol2 -> basic_continues sol1 sol2.
Proof. exact (fun T HS HL HE St => @bdf_truncated T HS HL HE St). Qed.
Print Assumptions C121_bdf_final_time_cuts.
(** in doubles: 7 of 11 recorded times *)
Example C121_example : mg_summary (pe_ab pe_t1) = Some (SUCCESS, 7, 7)%nat /\ mg_summary (pe_ab pe_t2) = Some (SUCCESS, 11, 11)%nat /\
  mg_summary (pe_bdf pe_t1) = Some (SUCCESS, 7, 7)%nat /\ mg_summary (pe_bdf pe_t2) = Some (SUCCESS, 11, 11)%nat /\
  (forall t, @sltb f64 mg_S t pe_t1 = true -> @sltb f64 mg_S t pe_t2 = true).
Proof. exact (conj (proj1 pe_ms_runs) (conj (proj1 (proj2 pe_ms_runs)) (conj (proj1 (proj2 (proj2 pe_ms_runs))) (conj (proj2 (proj2 (proj2 pe_ms_runs))) pe_later)))). Qed.
