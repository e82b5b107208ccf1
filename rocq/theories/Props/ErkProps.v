(** Property theorems about the explicit integrator erk::odeint (C16-C35).

    [erk_odeint fuel F t0 t1 y0 opts oo m dt w] runs the model of erk::odeint with right-hand side [F] from world [w];
    [(w', Ok sol)] means that it returned [sol] in world [w'].  [fuel] bounds the number of loop iterations of the
    evaluation; a run that needs more is an error value, never [Ok], so a hypothesis "... = (w', Ok sol)" holds for some
    fuel exactly if the C++ call returns. *)
From Coq Require Import Reals Lra Sorting.Sorted.
From Verif Require Import Model.Base Model.Scalar Model.LinAlg Model.Enums Model.Options Model.Coeffs Model.ErkCoeffs Model.Erk.
From Verif Require Import Spec.Sums Spec.Trees Spec.RkSpec Spec.Observe Spec.ErkSpec Spec.ErkSame Spec.Shift Spec.Methods.
From Verif Require Import Proofs.SumsProofs Proofs.NaiveInstance Proofs.ExactInstance Proofs.ErkGeneric Proofs.ErkTimes Proofs.ErkExact Proofs.ErkTotal Proofs.ErkBounded
  Proofs.ErkFsal Proofs.ErkShift Proofs.ErkF64 Proofs.ErkNan Proofs.ErkExamples Proofs.ErkFinal.
Local Open Scope R_scope.

(** C16.  Alignment, for every arithmetic and every functor. *)
Theorem C16_erk_output_aligned :
  forall (T : Type) (HS : Scalar T) (HL : LinAlg T) (HE : Env T) (St : Type) (F : functor T St) fuel t0 t1 y0 opts oo m dt w w' sol,
  erk_odeint fuel F t0 t1 y0 opts oo m dt w = (w', Ok sol) ->
  let k := length (eo_t_vals sol) in
  (1 <= k)%nat /\ length (eo_y_vals sol) = k /\ length (eo_stages sol) = k /\ length (eo_err_est sol) = k /\ length (eo_err sol) = k /\
  nth_error (eo_t_vals sol) 0 = Some t0 /\ nth_error (eo_y_vals sol) 0 = Some y0 /\
  Forall (fun y => length y = length y0) (eo_y_vals sol) /\
  Forall (fun e => length e = length y0) (eo_err_est sol) /\
  exists s, In (m, s) explicit_stage_counts /\ Forall (fun z => length z = s * length y0)%nat (eo_stages sol).
Proof. exact (fun T HS HL HE St => @erk_aligned T HS HL HE St). Qed.
Print Assumptions C16_erk_output_aligned.

(** A run in doubles: 19 attempts, 6 rejected, 14 entries recorded (the initial one and 13 steps), 114 calls of the
    right-hand side, 19 file lines; and one stopped by max_steps = 2 after 3 steps. *)
Example C16_example :
  (exists w s, ex_run false true (-1) CASH_KARP_54 ex_file = (w, Ok s) /\ eo_status s = SUCCESS /\ eo_attempt s = 19%nat /\
     eo_reject_err s = 6%nat /\ eo_fun_evals s = 114%nat /\ length (eo_t_vals s) = 14%nat /\ length (w_out w) = 19%nat) /\
  (exists w s, ex_run false true 2 DORMAND_PRINCE_54 ex_file = (w, Ok s) /\ eo_status s = ERROR_MAX_STEPS_EXCEEDED /\ eo_attempt s = 5%nat /\
     eo_reject_err s = 1%nat /\ eo_fun_evals s = 25%nat /\ length (eo_t_vals s) = 4%nat /\ length (w_out w) = 4%nat).
Proof. exact ex_runs. Qed.

(** C17.  Accounting. *)
Theorem C17_erk_step_accounting :
  forall (T : Type) (HS : Scalar T) (HL : LinAlg T) (HE : Env T) (St : Type) (F : functor T St) fuel t0 t1 y0 opts oo m dt w w' sol,
  erk_odeint fuel F t0 t1 y0 opts oo m dt w = (w', Ok sol) ->
  let steps := (length (eo_t_vals sol) - 1)%nat in
  (eo_status sol = SUCCESS /\ eo_attempt sol = (steps + eo_reject_err sol)%nat /\ eo_elapsed_time sol = Some clock /\
   eo_accept_frac sol = Some (sZ (Z.of_nat steps) /. sZ (Z.of_nat (eo_attempt sol)))%sc) \/
  (eo_status sol = ERROR_MAX_STEPS_EXCEEDED /\ eo_attempt sol = (steps + eo_reject_err sol + 1)%nat /\
   eo_elapsed_time sol = None /\ eo_accept_frac sol = None).
Proof. exact (fun T HS HL HE St => @erk_accounting T HS HL HE St). Qed.
Print Assumptions C17_erk_step_accounting.
Example C17_example : exists w s, ex_run false true 2 DORMAND_PRINCE_54 ex_file = (w, Ok s) /\ eo_status s = ERROR_MAX_STEPS_EXCEEDED /\
  eo_attempt s = 5%nat /\ eo_reject_err s = 1%nat /\ length (eo_t_vals s) = 4%nat.
Proof. destruct ex_runs as [_ (w & s & H1 & H2 & H3 & H4 & _ & H5 & _)]. exists w, s. auto. Qed.

(** C18.  fun_evals is the number of calls actually made; jac is never called. *)
Theorem C18_erk_fun_evals_true_count :
  forall (T : Type) (HS : Scalar T) (HL : LinAlg T) (HE : Env T) (St : Type) (F : functor T St) fuel t0 t1 y0 opts oo m dt w w' sol,
  erk_odeint fuel (logged F) t0 t1 y0 opts oo m dt w = (w', Ok sol) ->
  let executed := (if (eo_status sol =? SUCCESS)%Z then eo_attempt sol else eo_attempt sol - 1)%nat in
  exists l s, snd (w_st w') = snd (w_st w) ++ l /\ count_fun l = eo_fun_evals sol /\ count_jac l = 0%nat /\
    In (m, s) explicit_stage_counts /\
    eo_fun_evals sol = (if existsb (Z.eqb m) explicit_fsal then 1 + executed * (s - 1) else executed * s)%nat.
Proof. exact (fun T HS HL HE St => @erk_calls T HS HL HE St). Qed.
Print Assumptions C18_erk_fun_evals_true_count.
Example C18_example :
  match ex_run false true (-1) CASH_KARP_54 ex_file with (w, Ok s) => eo_fun_evals s = 114%nat /\ count_fun (snd (w_st w)) = 114%nat | _ => False end.
Proof. vm_compute. split; reflexivity. Qed.

(** C19.  Exact arithmetic: times increase strictly, stay in [t0,t1], and end exactly at t1 on success. *)
Theorem C19_erk_times_exact :
  forall (HE : Env R) (HL : LinAlg R) (St : Type) (F : functor R St) fuel t0 t1 y0 opts oo m dt w w' sol,
  (ndebug = false \/ (t0 < t1 /\ 0 < dt)) ->
  erk_odeint fuel F t0 t1 y0 opts oo m dt w = (w', Ok sol) ->
  StronglySorted Rlt (eo_t_vals sol) /\ Forall (fun t => t0 <= t <= t1) (eo_t_vals sol) /\
  (eo_status sol = SUCCESS -> last (eo_t_vals sol) t0 = t1).
Proof. exact (fun HE HL St => @erk_times HE HL St). Qed.
Print Assumptions C19_erk_times_exact.
(** Real adaptive runs exist, e.g. for y' = cos t with every embedded method. *)
Example C19_example : forall m, In m explicit_embedded -> exists fuel w' sol,
  @erk_odeint R RScalar exact_LA (exr_E false) _ fuel (exr_fun (fun t y => [cos t])) 0 1 [0] (exr_opts true) output_options_default m (1 / 4) (World tt []) = (w', Ok sol).
Proof. exact ex_cos. Qed.

(** C20.  In doubles, "stop exactly at t1" fails: every successful fixed-step run from -1 to 3*2^-54 with a step that
    does not fit ends at 2^-52 > t1, whatever the method, the right-hand side and the linear algebra. *)
Theorem C20_erk_overshoots_t1_refuted :
  forall pw (HL : LinAlg f64) (HE : Env f64) (St : Type) (F : functor f64 St) fuel y0 opts oo m w w' sol,
  let HS := F64Scalar pw in
  let t0 := dyadic (-1) 0 in let t1 := dyadic 3 (-54) in
  eo_adaptive opts = false -> (eo_max_steps opts < 0)%Z ->
  erk_odeint fuel F t0 t1 y0 opts oo m (dyadic 2 0) w = (w', Ok sol) ->
  eo_status sol = SUCCESS /\ eo_t_vals sol = [t0; dyadic 1 (-52)] /\ BinarySingleNaN.Bltb t1 (dyadic 1 (-52)) = true.
Proof. exact overshoot. Qed.
Print Assumptions C20_erk_overshoots_t1_refuted.

(** ... and with a step too small for the clock to advance the call never returns. *)
Theorem C20_erk_never_advances :
  forall pw (HL : LinAlg f64) (HE : Env f64) (St : Type) (F : functor f64 St) fuel y0 opts oo m w w' sol,
  let HS := F64Scalar pw in
  eo_adaptive opts = false -> (eo_max_steps opts < 0)%Z ->
  erk_odeint fuel F (dyadic 1 53) (dyadic (2 ^ 53 + 10) 0) y0 opts oo m (dyadic 1 (-2)) w <> (w', Ok sol).
Proof. exact never_advances. Qed.
Print Assumptions C20_erk_never_advances.
Example C20_example : match @erk_odeint f64 ex_S ex_LA (ex_E false) _ 5 ex_osc (dyadic (-1) 0) (dyadic 3 (-54)) [dyadic 1 0; dyadic 0 0] (ex_opts false (-1))
    output_options_default RUNGE_KUTTA_4 (dyadic 2 0) (World tt []) with
  | (_, Ok sol) => forallb BinarySingleNaN.is_finite (concat (eo_y_vals sol)) = true | _ => False end.
Proof. vm_compute. reflexivity. Qed.

(** C21.  The step limit. *)
Theorem C21_erk_step_limit :
  forall (T : Type) (HS : Scalar T) (HL : LinAlg T) (HE : Env T) (St : Type) (F : functor T St) fuel t0 t1 y0 opts oo m dt w w' sol,
  erk_odeint fuel F t0 t1 y0 opts oo m dt w = (w', Ok sol) ->
  let steps := Z.of_nat (length (eo_t_vals sol) - 1) in
  (eo_status sol = SUCCESS /\ (last (eo_t_vals sol) t0 <?. t1)%sc = false /\
     ((0 <= eo_max_steps opts)%Z -> (steps <= eo_max_steps opts + 1)%Z)) \/
  (eo_status sol = ERROR_MAX_STEPS_EXCEEDED /\ (last (eo_t_vals sol) t0 <?. t1)%sc = true /\
     (0 <= eo_max_steps opts)%Z /\ steps = (eo_max_steps opts + 1)%Z).
Proof. exact (fun T HS HL HE St => @erk_limit T HS HL HE St). Qed.
Print Assumptions C21_erk_step_limit.
Example C21_example : exists w s, ex_run false true 2 DORMAND_PRINCE_54 ex_file = (w, Ok s) /\ eo_status s = ERROR_MAX_STEPS_EXCEEDED /\ length (eo_t_vals s) = 4%nat.
Proof. destruct ex_runs as [_ (w & s & H1 & H2 & H3 & H4 & _ & H5 & _)]. exists w, s. auto. Qed.

(** C22.  Accepted steps meet the tolerance, and err / err_est are what they claim to be. *)
Theorem C22_erk_accepted_steps_meet_tolerance :
  forall (HE : Env R) (HL : LinAlg R) (HX : ExactProducts HL) (St : Type) (F : functor R St) f, computes F f ->
  forall fuel t0 t1 y0 opts oo m dt w w' sol,
  erk_odeint fuel F t0 t1 y0 opts oo m dt w = (w', Ok sol) ->
  eo_adaptive opts = true -> In m explicit_embedded -> exists sc, erk_get_coefficients m = Ok sc /\
  forall k, (S k < length (eo_t_vals sol))%nat ->
    let h := nth (S k) (eo_t_vals sol) 0 - nth k (eo_t_vals sol) 0 in
    let y := nth k (eo_y_vals sol) [] in
    let y' := nth (S k) (eo_y_vals sol) [] in
    let est := nth (S k) (eo_err_est sol) [] in
    nth (S k) (eo_err sol) 0 < 1 /\
    nth (S k) (eo_err sol) 0 = Rmax (1 / 10 ^ 17) (rms_error (length y0) (eo_abs_tol opts) (eo_rel_tol opts) y y' est) /\
    exists K, nth (S k) (eo_stages sol) [] = concat K /\
      rk_step (length y0) (length (sc_b sc)) (mfun (sc_A sc)) (vfun (sc_b sc)) (vfun (sc_c sc)) f (nth k (eo_t_vals sol) 0) h y y' K /\
      est = embedded_difference (length y0) (length (sc_b sc)) (vfun (sc_b sc)) (vfun (sc_b2 sc)) h K.
Proof. exact (fun HE HL HX St => @erk_tolerance HE HL HX St). Qed.
Print Assumptions C22_erk_accepted_steps_meet_tolerance.
Example C22_example : forall m, In m explicit_embedded -> computes (exr_fun (fun t y => [cos t])) (fun t y => [cos t]) /\ exists fuel w' sol,
  @erk_odeint R RScalar exact_LA (exr_E false) _ fuel (exr_fun (fun t y => [cos t])) 0 1 [0] (exr_opts true) output_options_default m (1 / 4) (World tt []) = (w', Ok sol).
Proof. intros m Hm. split; [apply exr_computes|apply ex_cos, Hm]. Qed.

(** C23.  Every recorded step is a step of the method's tableau. *)
Theorem C23_erk_steps_are_runge_kutta_steps :
  forall (HE : Env R) (HL : LinAlg R) (HX : ExactProducts HL) (St : Type) (F : functor R St) f, computes F f ->
  forall fuel t0 t1 y0 opts oo m dt w w' sol,
  erk_odeint fuel F t0 t1 y0 opts oo m dt w = (w', Ok sol) ->
  exists sc, erk_get_coefficients m = Ok sc /\
  forall k, (S k < length (eo_t_vals sol))%nat -> exists K, nth (S k) (eo_stages sol) [] = concat K /\
    rk_step (length y0) (length (sc_b sc)) (mfun (sc_A sc)) (vfun (sc_b sc)) (vfun (sc_c sc)) f
      (nth k (eo_t_vals sol) 0) (nth (S k) (eo_t_vals sol) 0 - nth k (eo_t_vals sol) 0)
      (nth k (eo_y_vals sol) []) (nth (S k) (eo_y_vals sol) []) K.
Proof. exact (fun HE HL HX St => @erk_is_rk HE HL HX St). Qed.
Print Assumptions C23_erk_steps_are_runge_kutta_steps.
(** A nonlinear system, every method, in fixed steps. *)
Example C23_example : forall m, In m explicit_methods -> exists fuel w' sol,
  @erk_odeint R RScalar exact_LA (exr_E false) _ fuel (exr_fun (fun t y => [ventry y 0 * ventry y 1; t - ventry y 0])) 0 1 [1; 2] (exr_opts false) output_options_default m (1 / 4) (World tt []) = (w', Ok sol).
Proof. intros m Hm. apply exr_fixed; [exact Hm|]. intros t y _. reflexivity. Qed.

(** C24.  Reusing the last stage as the next first stage changes nothing but the number of calls: the integrator
    core run with the method's table, and with the same table without the FSAL flag. *)
Theorem C24_erk_fsal_reuse_is_invisible :
  forall (HE : Env R) (HL : LinAlg R) (HX : ExactProducts HL) (St : Type) (F : functor R St) f, total_fun F f ->
  forall m sc, In m explicit_methods -> erk_get_coefficients m = Ok sc ->
  forall t0 t1 y0 opts oo, preserves_dim f (length y0) -> forall fuel dt w,
  match erk_guts F t1 opts sc oo fuel t0 y0 dt w, erk_guts F t1 opts (without_reuse sc) oo fuel t0 y0 dt w with
  | (w1, Ok a), (w2, Ok b) => w_out w1 = w_out w2 /\ same_but_evals a b
  | (w1, Err e1), (w2, Err e2) => w_out w1 = w_out w2 /\ e1 = e2
  | _, _ => False
  end.
Proof. exact fsal_final. Qed.
Print Assumptions C24_erk_fsal_reuse_is_invisible.
Example C24_example : total_fun (exr_fun (fun t y => [cos t])) (fun t y => [cos t]) /\ preserves_dim (fun t (y : list R) => [cos t]) 1 /\
  forall sc, erk_get_coefficients (T := R) DORMAND_PRINCE_54 = Ok sc -> sc_FSAL sc = true.
Proof. split; [apply exr_total|]. split; [intros t y _; reflexivity|]. intros sc Hg. exact (proj2 (sc_stages_fsal DORMAND_PRINCE_54 sc ltac:(simpl; tauto) Hg)). Qed.

(** C25.  Linear invariants. *)
Theorem C25_erk_linear_invariants :
  forall (HE : Env R) (HL : LinAlg R) (HX : ExactProducts HL) (St : Type) (F : functor R St) f, computes F f ->
  forall fuel t0 t1 y0 opts oo m dt w w' sol,
  erk_odeint fuel F t0 t1 y0 opts oo m dt w = (w', Ok sol) ->
  forall wt, (forall t y, length y = length y0 -> Rsum (length y0) (fun q => wt q * ventry (f t y) q) = 0) ->
  forall k, (k < length (eo_y_vals sol))%nat ->
  Rsum (length y0) (fun q => wt q * ventry (nth k (eo_y_vals sol) []) q) = Rsum (length y0) (fun q => wt q * ventry y0 q).
Proof. exact (fun HE HL HX St => @erk_invariant HE HL HX St). Qed.
Print Assumptions C25_erk_linear_invariants.
(** y1' = y1 y2, y2' = -y1 y2 conserves y1 + y2. *)
Example C25_example :
  (forall t y, length y = 2%nat -> Rsum 2 (fun q => 1 * ventry ((fun (_ : R) y => [ventry y 0 * ventry y 1; - (ventry y 0 * ventry y 1)]) t y) q) = 0) /\
  forall m, In m explicit_methods -> exists fuel w' sol,
  @erk_odeint R RScalar exact_LA (exr_E false) _ fuel (exr_fun (fun t y => [ventry y 0 * ventry y 1; - (ventry y 0 * ventry y 1)])) 0 1 [1; 2] (exr_opts false) output_options_default m (1 / 4) (World tt []) = (w', Ok sol).
Proof.
  split; [intros t y _; simpl; unfold ventry; simpl; ring|]. intros m Hm. apply exr_fixed; [exact Hm|]. intros t y _. reflexivity.
Qed.

(** C26.  Polynomial right-hand sides of degree below the order are integrated exactly. *)
Theorem C26_erk_exact_on_polynomials :
  forall (HE : Env R) (HL : LinAlg R) (HX : ExactProducts HL) (St : Type) (F : functor R St) f, computes F f ->
  forall fuel t0 t1 y0 opts oo m dt w w' sol,
  erk_odeint fuel F t0 t1 y0 opts oo m dt w = (w', Ok sol) ->
  forall p p2 d cf, In (m, p, p2) explicit_orders -> (d <= p)%nat ->
  (forall t y q, length y = length y0 -> (q < length y0)%nat -> ventry (f t y) q = poly d (cf q) t) ->
  forall k q, (k < length (eo_y_vals sol))%nat -> (q < length y0)%nat ->
  ventry (nth k (eo_y_vals sol) []) q = ventry y0 q + poly_integral d (cf q) t0 (nth k (eo_t_vals sol) 0).
Proof. exact (fun HE HL HX St => @erk_poly_exact HE HL HX St). Qed.
Print Assumptions C26_erk_exact_on_polynomials.
(** y' = 1 + 2t + 3t^2 with Bogacki-Shampine. *)
Example C26_example : (forall t y q, length y = 1%nat -> (q < 1)%nat -> ventry ((fun t (y : list R) => [1 + 2 * t + 3 * t ^ 2]) t y) q = poly 3 (fun j => INR (S j)) t) /\
  exists fuel w' sol,
  @erk_odeint R RScalar exact_LA (exr_E false) _ fuel (exr_fun (fun t y => [1 + 2 * t + 3 * t ^ 2])) 0 1 [1] (exr_opts false) output_options_default BOGACKI_SHAMPINE_32 (1 / 4) (World tt []) = (w', Ok sol).
Proof.
  split.
  - intros t y q _ Hq. assert (q = 0%nat) as -> by lia. unfold poly, ventry. simpl. ring.
  - apply exr_fixed; [simpl; tauto|]. intros t y _. reflexivity.
Qed.

(** C27.  Fixed steps: termination and grid. *)
Theorem C27_erk_fixed_steps_terminate :
  forall (HE : Env R) (HL : LinAlg R) (St : Type) (F : functor R St) t0 t1 y0 opts oo m dt,
  returns_dim F (length y0) -> In m explicit_methods -> (write_to_file oo = true -> output_stream oo <> None) ->
  t0 < t1 -> 0 < dt -> eo_adaptive opts = false \/ ~ In m explicit_embedded ->
  forall w, exists n w' sol, (forall fuel, (n <= fuel)%nat -> erk_odeint fuel F t0 t1 y0 opts oo m dt w = (w', Ok sol)) /\
  (forall k, (k < length (eo_t_vals sol))%nat -> nth k (eo_t_vals sol) 0 = Rmin (t0 + INR k * dt) t1) /\
  (eo_status sol = SUCCESS -> exists N, (1 <= N)%nat /\ INR (N - 1) * dt < t1 - t0 <= INR N * dt /\
     eo_t_vals sol = map (fun k => t0 + INR k * dt) (seq 0 N) ++ [t1]) /\
  ((eo_max_steps opts < 0)%Z -> eo_status sol = SUCCESS).
Proof. exact fixed_final. Qed.
Print Assumptions C27_erk_fixed_steps_terminate.
Example C27_example : returns_dim (exr_fun (fun t y => [ventry y 0 * ventry y 1; t - ventry y 0])) 2.
Proof. intros t y s _. exists s. eexists. split; reflexivity. Qed.

(** C28.  Adaptive runs terminate for bounded right-hand sides. *)
Theorem C28_erk_adaptive_terminates_bounded :
  forall (HE : Env R) (HL : LinAlg R) (HX : ExactProducts HL) (St : Type) (F : functor R St) f B t0 t1 y0 opts oo m dt,
  total_fun F f -> preserves_dim f (length y0) -> (forall t y q, length y = length y0 -> Rabs (ventry (f t y) q) <= B) -> y0 <> [] ->
  In m explicit_embedded -> (write_to_file oo = true -> output_stream oo <> None) ->
  eo_adaptive opts = true -> 0 < eo_abs_tol opts -> 0 <= eo_rel_tol opts -> t0 < t1 -> 0 < dt ->
  forall w, exists n w' sol, (forall fuel, (n <= fuel)%nat -> erk_odeint fuel F t0 t1 y0 opts oo m dt w = (w', Ok sol)) /\
  ((eo_max_steps opts < 0)%Z -> eo_status sol = SUCCESS).
Proof. exact bounded_final. Qed.
Print Assumptions C28_erk_adaptive_terminates_bounded.
Example C28_example : total_fun (exr_fun (fun t y => [cos t])) (fun t y => [cos t]) /\ preserves_dim (fun t (y : list R) => [cos t]) 1 /\
  forall t (y : list R) q, length y = 1%nat -> Rabs (ventry [cos t] q) <= 1.
Proof. exact cos_bounded. Qed.

(** C29.  The controller: consecutive attempts. *)
Theorem C29_erk_controller_bounds :
  forall (HE : Env R) (HL : LinAlg R) (St : Type) (F : functor R St) fuel t0 t1 y0 opts oo m dt w w' sol,
  (ndebug = false \/ (t0 < t1 /\ 0 < dt)) ->
  erk_odeint fuel (logged F) t0 t1 y0 opts oo m dt w = (w', Ok sol) ->
  exists sc atts calls, erk_get_coefficients m = Ok sc /\
    (let first := if existsb (Z.eqb m) explicit_fsal then 1%nat else 0%nat in
     snd (w_st w') = snd (w_st w) ++ calls /\
     map call_time calls = repeat t0 first ++ flat_map (stage_times (sc_c sc) first) atts) /\
    eo_t_vals sol = t0 :: map at_end (accepted atts) /\ chained t0 atts /\
    (forall a, nth_error atts 0 = Some a -> at_dt a = Rmin dt (t1 - t0)) /\
    (eo_adaptive opts = true -> In m explicit_embedded ->
       consecutive (fun a b => at_dt b <= 36 / 10 * at_dt a /\ (0 < eo_max_dt opts -> at_dt b <= eo_max_dt opts) /\
                               (at_ok a = false -> at_dt b < at_dt a)) atts) /\
    (eo_adaptive opts = false \/ ~ In m explicit_embedded -> forall a, In a atts -> at_ok a = true /\ at_dt a = Rmin dt (t1 - at_t a)).
Proof. exact (fun HE HL St => @erk_attempts HE HL St). Qed.
Print Assumptions C29_erk_controller_bounds.
Example C29_example : forall m, In m explicit_embedded -> exists fuel w' sol,
  @erk_odeint R RScalar exact_LA (exr_E false) _ fuel (logged (exr_fun (fun t y => [cos t]))) 0 1 [0] (exr_opts true) output_options_default m (1 / 4) (World (tt, []) []) = (w', Ok sol).
Proof. exact ex_cos_logged. Qed.

(** C30.  A right-hand side that only returns NaN.  With assertions: the process aborts in the first attempt ... *)
Theorem C30_erk_nan_aborts :
  forall pw (HE : Env f64) (HL : LinAlg f64), nan_products HL -> forall (St : Type) (F : functor f64 St),
  let HS := F64Scalar pw in
  forall m t0 t1 y0 opts oo dt w fuel, always_nan F (length y0) -> (0 < length y0)%nat -> In m explicit_embedded -> eo_adaptive opts = true ->
  ndebug = false -> (t0 <?. t1)%sc = true -> (dt >?. sZ 0)%sc = true -> (t1 -. t0 >?. sZ 0)%sc = true ->
  exists w', erk_odeint (S fuel) F t0 t1 y0 opts oo m dt w = (w', Err EAbort) /\ w_out w' = w_out w.
Proof. exact nan_abort_final. Qed.
Print Assumptions C30_erk_nan_aborts.
(** ... and without assertions no attempt is ever rejected, every state is NaN, and the steps only grow. *)
Theorem C30_erk_nan_accepted :
  forall pw, pow_nan pw -> forall (HE : Env f64) (HL : LinAlg f64), nan_products HL -> forall (St : Type) (F : functor f64 St),
  let HS := F64Scalar pw in
  forall m t0 t1 y0 opts oo dt w fuel w' sol, always_nan F (length y0) -> (0 < length y0)%nat -> In m explicit_embedded -> eo_adaptive opts = true ->
  erk_odeint fuel F t0 t1 y0 opts oo m dt w = (w', Ok sol) ->
  eo_reject_err sol = 0%nat /\ Forall (fun y => y = repeat nan (length y0)) (tl (eo_y_vals sol)) /\ Forall (fun e => e = nan) (tl (eo_err sol)) /\
  eo_t_vals sol = nan_grid (eo_max_dt opts) t1 (length (eo_t_vals sol)) t0 (if (t0 +. dt >?. t1)%sc then (t1 -. t0)%sc else dt) /\
  ((eo_max_steps opts < 0)%Z -> eo_status sol = SUCCESS).
Proof. exact nan_accept_final. Qed.
Print Assumptions C30_erk_nan_accepted.
Example C30_example : pow_nan ex_pow /\ nan_products ex_LA /\
  let F := pure_functor (fun (_ : f64) (_ : list f64) => [nan; nan]) (fun _ _ => mtab 0 0 (fun _ _ => nan)) in
  always_nan F 2 /\
  match @erk_odeint f64 ex_S ex_LA (ex_E true) _ 50 F (dyadic 0 0) (dyadic 1 0) [dyadic 1 0; dyadic 0 0] (ex_opts true (-1)) output_options_default CASH_KARP_54 (dyadic 1 (-6)) (World tt []) with
  | (_, Ok sol) => eo_status sol = SUCCESS /\ length (eo_t_vals sol) = 5%nat | _ => False end.
Proof. exact nan_example. Qed.

(** C31.  Degenerate intervals: the assertion fires before the first call; with NDEBUG the initial point is returned
    (t1 <= t0), or the loop never ends (dt <= 0 and t0 < t1). *)
Theorem C31_erk_degenerate_aborts :
  forall (HE : Env R) (HL : LinAlg R) (St : Type) (F : functor R St) fuel t0 t1 y0 opts oo m dt w,
  ndebug = false -> t1 <= t0 \/ dt <= 0 -> erk_odeint fuel F t0 t1 y0 opts oo m dt w = (w, Err EAbort).
Proof. exact (fun HE HL St => @erk_degenerate HE HL St). Qed.
Print Assumptions C31_erk_degenerate_aborts.
Theorem C31_erk_degenerate_ndebug :
  forall (HE : Env R) (HL : LinAlg R) (St : Type) (F : functor R St) fuel t0 t1 y0 opts oo m dt w,
  ndebug = true -> t1 <= t0 -> In m explicit_methods ->
  (forall s, exists s' v, f_fun F t0 y0 s = (s', Ok v) /\ length v = length y0) ->
  exists w' sol, erk_odeint fuel F t0 t1 y0 opts oo m dt w = (w', Ok sol) /\ eo_status sol = SUCCESS /\
    eo_t_vals sol = [t0] /\ eo_y_vals sol = [y0] /\ w_out w' = w_out w.
Proof. exact (fun HE HL St => @erk_degenerate_ndebug HE HL St). Qed.
Print Assumptions C31_erk_degenerate_ndebug.
Theorem C31_erk_nonpositive_step_never_returns :
  forall (HE : Env R) (HL : LinAlg R) (St : Type) (F : functor R St) fuel t0 t1 y0 opts oo m dt w w' sol,
  t0 < t1 -> dt <= 0 -> (eo_max_steps opts < 0)%Z -> erk_odeint fuel F t0 t1 y0 opts oo m dt w <> (w', Ok sol).
Proof. exact (fun HE HL St => @erk_stuck HE HL St). Qed.
Print Assumptions C31_erk_nonpositive_step_never_returns.
Example C31_example : @ndebug R (exr_E false) = false /\ @ndebug R (exr_E true) = true /\
  forall s, exists s' v, f_fun (exr_fun (fun t y => [cos t])) 1 [0] s = (s', Ok v) /\ length v = length [0].
Proof. repeat split. intros s. exists s. eexists. split; reflexivity. Qed.

(** C32.  Methods without an embedded pair ignore the adaptive flag. *)
Theorem C32_erk_adaptive_flag_ignored_without_pair :
  forall (T : Type) (HS : Scalar T) (HL : LinAlg T) (HE : Env T) (St : Type) (F : functor T St) fuel t0 t1 y0 opts oo m dt adaptive w,
  m = EXPLICIT_EULER \/ m = RUNGE_KUTTA_4 ->
  erk_odeint fuel F t0 t1 y0 (ErkOptions adaptive (eo_rel_tol opts) (eo_abs_tol opts) (eo_max_dt opts) (eo_max_steps opts)) oo m dt w =
  erk_odeint fuel F t0 t1 y0 (ErkOptions false (eo_rel_tol opts) (eo_abs_tol opts) (eo_max_dt opts) (eo_max_steps opts)) oo m dt w.
Proof. exact (fun T HS HL HE St => @erk_no_pair T HS HL HE St). Qed.
Print Assumptions C32_erk_adaptive_flag_ignored_without_pair.
Example C32_example : exists w s, ex_run false true (-1) RUNGE_KUTTA_4 ex_file = (w, Ok s) /\ length (eo_t_vals s) = 3%nat /\
  ~ exists w s, ex_run false true (-1) CASH_KARP_54 ex_file = (w, Ok s) /\ length (eo_t_vals s) = 3%nat.
Proof. exact ex_flag. Qed.

(** C33.  File output: one line per attempt, the time of its start with the state at its end; never a time t1. *)
Theorem C33_erk_file_is_not_the_solution :
  forall (T : Type) (HS : Scalar T) (HL : LinAlg T) (HE : Env T) (St : Type) (F : functor T St) fuel t0 t1 y0 opts oo m dt w w' sol,
  erk_odeint fuel F t0 t1 y0 opts oo m dt w = (w', Ok sol) ->
  exists atts, chained t0 atts /\ w_out w' = w_out w ++ (if write_to_file oo then map (fun a => (at_t a, at_yn a)) atts else []) /\
    length atts = (if (eo_status sol =? SUCCESS)%Z then eo_attempt sol else eo_attempt sol - 1)%nat /\
    eo_t_vals sol = t0 :: map at_end (accepted atts) /\ eo_y_vals sol = y0 :: map at_yn (accepted atts) /\
    Forall (fun a => (at_t a <?. t1)%sc = true) atts.
Proof. exact (fun T HS HL HE St => @erk_file T HS HL HE St). Qed.
Print Assumptions C33_erk_file_is_not_the_solution.
Example C33_example : exists w s, ex_run false true (-1) CASH_KARP_54 ex_file = (w, Ok s) /\ length (w_out w) = 19%nat /\ length (eo_t_vals s) = 14%nat.
Proof. destruct ex_runs as [(w & s & H1 & H2 & H3 & H4 & _ & H5 & H6) _]. exists w, s. auto. Qed.

(** C34.  Time-shift equivariance, for any right-hand side (with hidden state, possibly throwing). *)
Theorem C34_erk_time_shift :
  forall (HE : Env R) (HL : LinAlg R) (St : Type) (s : R) (F : functor R St) fuel t0 t1 y0 opts oo m dt st,
  match erk_odeint fuel F (t0 + s) (t1 + s) y0 opts oo m dt (World st []), erk_odeint fuel (shift_functor s F) t0 t1 y0 opts oo m dt (World st []) with
  | (w1, Ok a), (w2, Ok b) =>
      eo_t_vals a = map (fun t => t + s) (eo_t_vals b) /\ eo_y_vals a = eo_y_vals b /\ eo_stages a = eo_stages b /\
      eo_err_est a = eo_err_est b /\ eo_err a = eo_err b /\ eo_status a = eo_status b /\ eo_attempt a = eo_attempt b /\
      eo_reject_err a = eo_reject_err b /\ eo_fun_evals a = eo_fun_evals b /\
      w_st w1 = w_st w2 /\ w_out w1 = shift_lines s (w_out w2)
  | (w1, Err e1), (w2, Err e2) => e1 = e2 /\ w_st w1 = w_st w2 /\ w_out w1 = shift_lines s (w_out w2)
  | _, _ => False
  end.
Proof. exact (fun HE HL St => @erk_shift HE HL St). Qed.
Print Assumptions C34_erk_time_shift.
(** A non-autonomous right-hand side; both runs return (C19_example, C23_example). *)
Example C34_example : shift_functor 2 (exr_fun (fun t y => [cos t])) = exr_fun (fun t y => [cos (t + 2)]).
Proof. reflexivity. Qed.

(** C35.  The linear test equation y' = lambda y. *)
Theorem C35_erk_linear_stability_function :
  forall (HE : Env R) (HL : LinAlg R) (HX : ExactProducts HL) (St : Type) (F : functor R St) f, computes F f ->
  forall fuel t0 t1 y0 opts oo m dt w w' sol,
  erk_odeint fuel F t0 t1 y0 opts oo m dt w = (w', Ok sol) ->
  forall lam, (forall t y q, length y = length y0 -> (q < length y0)%nat -> ventry (f t y) q = lam * ventry y q) ->
  exists sc, erk_get_coefficients m = Ok sc /\ let R_ := stability (length (sc_b sc)) (mfun (sc_A sc)) (vfun (sc_b sc)) in
  (forall k q, (S k < length (eo_y_vals sol))%nat -> (q < length y0)%nat ->
     ventry (nth (S k) (eo_y_vals sol) []) q =
     R_ (lam * (nth (S k) (eo_t_vals sol) 0 - nth k (eo_t_vals sol) 0)) * ventry (nth k (eo_y_vals sol) []) q) /\
  forall p p2, In (m, p, p2) explicit_orders -> forall i, (i <= p)%nat ->
    stab_coeff (length (sc_b sc)) (mfun (sc_A sc)) (vfun (sc_b sc)) i = 1 / INR (fact i).
Proof. exact (fun HE HL HX St => @erk_linear HE HL HX St). Qed.
Print Assumptions C35_erk_linear_stability_function.
Example C35_example : forall m, In m explicit_methods -> exists fuel w' sol,
  @erk_odeint R RScalar exact_LA (exr_E false) _ fuel (exr_fun (fun t y => map (Rmult (-3)) y)) 0 1 [1; 2] (exr_opts false) output_options_default m (1 / 4) (World tt []) = (w', Ok sol).
Proof. intros m Hm. apply exr_fixed; [exact Hm|]. intros t y Hy. rewrite map_length. exact Hy. Qed.
