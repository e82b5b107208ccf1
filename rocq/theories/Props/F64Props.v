(** Runs in doubles: the times an integration records. *)
From Coq Require Import Reals Sorted Lra.
From Flocq Require Import Core IEEE754.BinarySingleNaN.
From Verif Require Import Model.Base Model.Scalar Model.LinAlg Model.Enums Model.Options Model.Coeffs Model.Erk Model.Irk Model.Multistep.
From Verif Require Import Spec.Observe Spec.Methods Spec.ErkSpec Spec.MultistepSpec Spec.F64Spec Proofs.ErkExamples Proofs.IrkExamples Proofs.ErkF64Times Proofs.IrkF64Final.
From Verif Require Import Proofs.ErkClock Proofs.ErkF64Fixed Proofs.F64Stuck Proofs.MultistepExamples Proofs.MultistepCopy Proofs.MultistepF64.
Local Open Scope R_scope.

(** C105.  In doubles: the times are finite and never go back, only the last one reaches t1, and a successful run ends at or
    after t1, by at most 2^-52 (t1 - t0 + |t1|). *)
Theorem C105_erk_times_in_doubles :
  forall pw (HL : LinAlg f64) (HE : Env f64) (St : Type) (F : functor f64 St) fuel (t0 t1 : f64) y0 opts oo m (dt : f64) w w' sol,
  let HS := F64Scalar pw in
  (eo_adaptive opts = true -> pow_keeps_sign pw) ->
  is_finite t0 = true -> is_finite t1 = true -> Rabs (B2R t0) <= bpow radix2 1022 -> Rabs (B2R t1) <= bpow radix2 1022 ->
  Bltb t0 t1 = true -> Bltb (B754_zero false) dt = true ->
  erk_odeint fuel F t0 t1 y0 opts oo m dt w = (w', Ok sol) ->
  Forall (fun t => is_finite t = true) (eo_t_vals sol) /\ StronglySorted (fun s t => B2R s <= B2R t) (eo_t_vals sol) /\
  Forall (fun t => B2R t < B2R t1) (removelast (eo_t_vals sol)) /\
  (eo_status sol = SUCCESS -> B2R t1 <= B2R (last (eo_t_vals sol) t0) <= B2R t1 + bpow radix2 (-52) * (B2R t1 - B2R t0 + Rabs (B2R t1))).
Proof. exact (fun pw HL HE St => @erk_times64 pw HL HE St). Qed.
Print Assumptions C105_erk_times_in_doubles.
(** The oscillator y1' = y2, y2' = -25 y1 from 0 to 1, adaptively: *)
Example C105_example : pow_keeps_sign ex_pow /\ exists w s, ex_run false true (-1) CASH_KARP_54 ex_file = (w, Ok s) /\ eo_status s = SUCCESS /\
  Forall (fun t => is_finite t = true) (eo_t_vals s) /\ (10 <= length (eo_t_vals s))%nat /\ 1 <= B2R (last (eo_t_vals s) (@sZ f64 ex_S 0)) <= 1 + bpow radix2 (-51).
Proof. exact erk_times64_example. Qed.

(** C106.  The same for the implicit integrator, for times up to 2^900. *)
Theorem C106_irk_times_in_doubles :
  forall pw (HL : LinAlg f64) (HE : Env f64) (St : Type) (F : functor f64 St) fuel (t0 t1 : f64) y0 opts oo m (dt : f64) w w' sol,
  let HS := F64Scalar pw in
  pow_keeps_sign pw ->
  is_finite t0 = true -> is_finite t1 = true -> Rabs (B2R t0) <= bpow radix2 900 -> Rabs (B2R t1) <= bpow radix2 900 ->
  Bltb t0 t1 = true -> Bltb (B754_zero false) dt = true ->
  irk_odeint fuel F t0 t1 y0 opts oo m dt w = (w', Ok sol) ->
  Forall (fun t => is_finite t = true) (io_t_vals sol) /\ StronglySorted (fun s t => B2R s <= B2R t) (io_t_vals sol) /\
  Forall (fun t => B2R t < B2R t1) (removelast (io_t_vals sol)) /\
  Forall (fun t => B2R t <= B2R t1 + bpow radix2 (-52) * (B2R t1 - B2R t0 + Rabs (B2R t1))) (io_t_vals sol) /\
  (io_status sol = SUCCESS -> store_in_vectors oo = true -> output_interval oo = 1%Z -> B2R t1 <= B2R (last (io_t_vals sol) t0)).
Proof. exact (fun pw HL HE St => @irk_times64 pw HL HE St). Qed.
Print Assumptions C106_irk_times_in_doubles.
(** Van der Pol's equation from 0 to 1 with RADAU_IIA_53: *)
Example C106_example : pow_keeps_sign ex_pow /\ exists w s, ig_run false true (-1) 5 1 RADAU_IIA_53 (ig_both 1) = (w, Ok s) /\ io_status s = SUCCESS /\
  length (io_t_vals s) = 6%nat /\ Forall (fun t => is_finite t = true) (io_t_vals s) /\ 1 <= B2R (last (io_t_vals s) (@sZ f64 ex_S 0)).
Proof. exact irk_times64_example. Qed.

(** C107.  In doubles: a fixed-step explicit run returns when the step is at least 2^-52 times the larger of |t0| and |t1|,
    after at most 2 (t1 - t0) / dt + 42 steps. *)
Theorem C107_erk_fixed_steps_return_in_doubles :
  forall pw (HL : LinAlg f64) (HE : Env f64) (St : Type) (F : functor f64 St) (t0 t1 : f64) y0 opts oo m (dt : f64),
  let HS := F64Scalar pw in
  returns_dim F (length y0) -> In m explicit_methods -> (write_to_file oo = true -> output_stream oo <> None) ->
  eo_adaptive opts = false \/ ~ In m explicit_embedded ->
  is_finite t0 = true -> is_finite t1 = true -> is_finite dt = true -> Rabs (B2R t0) <= bpow radix2 1022 -> Rabs (B2R t1) <= bpow radix2 1022 ->
  B2R t0 < B2R t1 -> 0 < B2R dt -> bpow radix2 (-52) * Rmax (Rabs (B2R t0)) (Rabs (B2R t1)) <= B2R dt ->
  forall w, exists n w' sol, (forall fuel, (n <= fuel)%nat -> erk_odeint fuel F t0 t1 y0 opts oo m dt w = (w', Ok sol)) /\
  INR (length (eo_t_vals sol)) <= 2 * (B2R t1 - B2R t0) / B2R dt + 43 /\ ((eo_max_steps opts < 0)%Z -> eo_status sol = SUCCESS).
Proof. exact (fun pw HL HE St => @fixed64 pw HL HE St). Qed.
Print Assumptions C107_erk_fixed_steps_return_in_doubles.
(** The oscillator from 0 to 1 in steps of 0.1; rounding makes it eleven steps: *)
Example C107_example : returns_dim ex_osc 2 /\ is_finite tenth = true /\
  bpow radix2 (-52) * Rmax (Rabs (B2R (@sZ f64 ex_S 0))) (Rabs (B2R (@sZ f64 ex_S 1))) <= B2R tenth /\
  exists w sol, @erk_odeint f64 ex_S ex_LA (ex_E false) _ 54 ex_osc (@sZ f64 ex_S 0) (@sZ f64 ex_S 1) [@sZ f64 ex_S 1; @sZ f64 ex_S 0] (ex_opts false (-1))
    output_options_default RUNGE_KUTTA_4 tenth (World tt []) = (w, Ok sol) /\ eo_status sol = SUCCESS /\ length (eo_t_vals sol) = 12%nat.
Proof. exact fixed64_example. Qed.

(** C108.  Under a step limit a fixed-step explicit run returns in every arithmetic, after at most max_steps + 2 turns of its loop. *)
Theorem C108_erk_step_limit_returns :
  forall (T : Type) (HS : Scalar T) (HL : LinAlg T) (HE : Env T) (St : Type) (F : functor T St) (t0 t1 : T) y0 opts oo m (dt : T),
  returns_dim F (length y0) -> In m explicit_methods -> (write_to_file oo = true -> output_stream oo <> None) ->
  eo_adaptive opts = false \/ ~ In m explicit_embedded -> (slit 0 0 ==?. slit 0 0)%sc = true ->
  ndebug = true \/ ((if t0 +. dt >?. t1 then t1 -. t0 else dt) >?. sZ 0)%sc = true -> (0 <= eo_max_steps opts)%Z ->
  forall w, exists w' sol, forall fuel, (Z.to_nat (eo_max_steps opts) + 2 <= fuel)%nat -> erk_odeint fuel F t0 t1 y0 opts oo m dt w = (w', Ok sol).
Proof. exact (fun T HS HL HE St => @limit_final T HS HE HL St). Qed.
Print Assumptions C108_erk_step_limit_returns.
(** The run of C20_erk_never_advances, with a limit of three steps: *)
Example C108_example : match @erk_odeint f64 ex_S ex_LA (ex_E false) _ 5 ex_osc (dyadic 1 53) (dyadic (2 ^ 53 + 10) 0) [dyadic 1 0; dyadic 0 0] (ex_opts false 3)
    output_options_default RUNGE_KUTTA_4 (dyadic 1 (-2)) (World tt []) with
  | (_, Ok sol) => (eo_status sol =? ERROR_MAX_STEPS_EXCEEDED)%Z && forallb (fun t => Beqb t (dyadic 1 53)) (eo_t_vals sol) | _ => false end = true.
Proof. vm_compute. reflexivity. Qed.

(** C109.  In doubles: with a step of at most 2^-55 |t0| a fixed-step run without a step limit never returns. *)
Theorem C109_erk_lost_step_never_returns :
  forall pw (HL : LinAlg f64) (HE : Env f64) (St : Type) (F : functor f64 St) fuel (t0 t1 : f64) y0 opts oo m (dt : f64) w w' sol,
  let HS := F64Scalar pw in
  eo_adaptive opts = false -> (eo_max_steps opts < 0)%Z -> is_finite t0 = true -> is_finite t1 = true -> is_finite dt = true ->
  Rabs (B2R t0) <= bpow radix2 1022 -> B2R t0 < B2R t1 -> 0 < B2R dt <= bpow radix2 (-55) * Rabs (B2R t0) ->
  erk_odeint fuel F t0 t1 y0 opts oo m dt w <> (w', Ok sol).
Proof. exact stuck64. Qed.
Print Assumptions C109_erk_lost_step_never_returns.
(** From 2^53 to 2^54 in steps of 1/4: *)
Example C109_example : is_finite (dyadic 1 53) = true /\ is_finite (dyadic 1 54) = true /\ is_finite (dyadic 1 (-2)) = true /\
  Rabs (B2R (dyadic 1 53)) <= bpow radix2 1022 /\ B2R (dyadic 1 53) < B2R (dyadic 1 54) /\ 0 < B2R (dyadic 1 (-2)) <= bpow radix2 (-55) * Rabs (B2R (dyadic 1 53)).
Proof. exact stuck64_example. Qed.

(** C110.  In doubles: the times adams_bashforth and bdf record.  The step h is dt, or t1 - t0 when t0 + dt would pass t1
    ([fitted_step]); the k first times belong to the starting values. *)
Theorem C110_adams_bashforth_times_in_doubles :
  forall pw (HL : LinAlg f64) (HE : Env f64) (St : Type) (F : functor f64 St) fuel (t0 t1 : f64) y0 order (dt : f64) w w' sol,
  let HS := F64Scalar pw in
  is_finite t0 = true -> is_finite t1 = true -> Rabs (B2R t0) <= bpow radix2 1000 -> Rabs (B2R t1) <= bpow radix2 1000 ->
  B2R t0 < B2R t1 -> Bltb (B754_zero false) dt = true -> (order <= 5)%Z -> adams_bashforth fuel F t0 t1 y0 order dt w = (w', Ok sol) ->
  clock_in_doubles (Z.to_nat order) t0 t1 (fitted_step t0 t1 dt) (bo_t_vals sol) /\ B2R t1 <= B2R (last (bo_t_vals sol) t0).
Proof. exact (fun pw HL HE St => @ab_times64 pw HL HE St). Qed.
Print Assumptions C110_adams_bashforth_times_in_doubles.
Theorem C110_bdf_times_in_doubles :
  forall pw (HL : LinAlg f64) (HE : Env f64) (St : Type) (F : functor f64 St) fuel (t0 t1 : f64) y0 order (dt : f64) w w' sol,
  let HS := F64Scalar pw in
  is_finite t0 = true -> is_finite t1 = true -> Rabs (B2R t0) <= bpow radix2 1000 -> Rabs (B2R t1) <= bpow radix2 1000 ->
  B2R t0 < B2R t1 -> Bltb (B754_zero false) dt = true -> (1 <= order <= 6)%Z -> bdf fuel F t0 t1 y0 order dt w = (w', Ok sol) ->
  clock_in_doubles (S (Z.to_nat order)) t0 t1 (fitted_step t0 t1 dt) (bo_t_vals sol) /\
  (bo_status sol = SUCCESS /\ B2R t1 <= B2R (last (bo_t_vals sol) t0) \/ bo_status sol = INTERNAL_SOLVE_FAILURE /\ B2R (last (bo_t_vals sol) t0) < B2R t1).
Proof. exact (fun pw HL HE St => @bdf_times64 pw HL HE St). Qed.
Print Assumptions C110_bdf_times_in_doubles.
(** y' = -y^2 from 0 to 1e-5 in steps of 2e-6: six steps, not five. *)
Example C110_example : exists w s w' s', m4_ab 3 (mc_end 1) = (w, Ok s) /\ m4_bdf 2 (mc_end 1) = (w', Ok s') /\ length (bo_t_vals s) = 7%nat /\ length (bo_t_vals s') = 7%nat /\
  clock_in_doubles 3 (@sZ f64 mg_S 0) (mc_end 1) mg_dt (bo_t_vals s) /\ clock_in_doubles 3 (@sZ f64 mg_S 0) (mc_end 1) mg_dt (bo_t_vals s').
Proof. exact times64_example. Qed.

(** C111.  In doubles: with a step of at least 2^-52 times the larger of |t0| and |t1|, a multistep solver whose starting
    integrations return -- seen from one call that returned, to any end time with the same step -- returns for every end time. *)
Theorem C111_adams_bashforth_returns_in_doubles :
  forall pw (HL : LinAlg f64) (HE : Env f64) (St : Type) (F : functor f64 St) (t0 t1 : f64) y0 order (dt : f64) w,
  let HS := F64Scalar pw in
  returns_dim F (length y0) ->
  is_finite t0 = true -> is_finite t1 = true -> is_finite dt = true -> Rabs (B2R t0) <= bpow radix2 1022 -> Rabs (B2R t1) <= bpow radix2 1022 ->
  B2R t0 < B2R t1 -> 0 < B2R dt -> bpow radix2 (-52) * Rmax (Rabs (B2R t0)) (Rabs (B2R t1)) <= B2R dt ->
  (1 <= order <= 5)%Z ->
  (order = 1%Z \/ exists t1' fuel0 w0 sol0, fitted_step t0 t1' dt = fitted_step t0 t1 dt /\ adams_bashforth fuel0 F t0 t1' y0 order dt w = (w0, Ok sol0)) ->
  exists fuel w' sol, adams_bashforth fuel F t0 t1 y0 order dt w = (w', Ok sol) /\
  INR (length (bo_t_vals sol)) <= Rmax (IZR order) (2 * (B2R t1 - B2R t0) / B2R dt + 3).
Proof. exact (fun pw HL HE St => @ab_returns64 pw HL HE St). Qed.
Print Assumptions C111_adams_bashforth_returns_in_doubles.
Theorem C111_bdf_returns_in_doubles :
  forall pw (HL : LinAlg f64) (HE : Env f64) (St : Type) (F : functor f64 St) (t0 t1 : f64) y0 order (dt : f64) w,
  let HS := F64Scalar pw in
  returns_dim F (length y0) ->
  (forall t y s, length y = length y0 -> exists s' J, f_jac F t y s = (s', Ok J) /\ nrows J = length y0 /\ ncols J = length y0) ->
  is_finite t0 = true -> is_finite t1 = true -> is_finite dt = true -> Rabs (B2R t0) <= bpow radix2 1022 -> Rabs (B2R t1) <= bpow radix2 1022 ->
  B2R t0 < B2R t1 -> 0 < B2R dt -> bpow radix2 (-52) * Rmax (Rabs (B2R t0)) (Rabs (B2R t1)) <= B2R dt ->
  (1 <= order <= 6)%Z ->
  (exists t1' fuel0 w0 sol0, fitted_step t0 t1' dt = fitted_step t0 t1 dt /\ bdf fuel0 F t0 t1' y0 order dt w = (w0, Ok sol0)) ->
  exists fuel w' sol, bdf fuel F t0 t1 y0 order dt w = (w', Ok sol) /\
  INR (length (bo_t_vals sol)) <= Rmax (IZR order + 1) (2 * (B2R t1 - B2R t0) / B2R dt + 3).
Proof. exact (fun pw HL HE St => @bdf_returns64 pw HL HE St). Qed.
Print Assumptions C111_bdf_returns_in_doubles.
(** The calls of C110_example to 1e-5 return; so those to 2e-5 do: *)
Example C111_example : exists fuel w s fuel' w' s',
  @adams_bashforth f64 (F64Scalar m4_pow) mg_LA (ex_E false) _ fuel mg_sq (@sZ f64 mg_S 0) (mc_end 2) [@sZ f64 mg_S 1] 3 mg_dt (World tt []) = (w, Ok s) /\
  @bdf f64 (F64Scalar m4_pow) mg_LA (ex_E false) _ fuel' mg_sq (@sZ f64 mg_S 0) (mc_end 2) [@sZ f64 mg_S 1] 2 mg_dt (World tt []) = (w', Ok s').
Proof. exact returns64_example. Qed.

(** C112.  In doubles: with a step of at most 2^-55 |t0| adams_bashforth never returns, and bdf never reports SUCCESS. *)
Theorem C112_adams_bashforth_lost_step_never_returns :
  forall pw (HL : LinAlg f64) (HE : Env f64) (St : Type) (F : functor f64 St) fuel (t0 t1 : f64) y0 order (dt : f64) w w' sol,
  let HS := F64Scalar pw in
  is_finite t0 = true -> is_finite t1 = true -> is_finite dt = true -> Rabs (B2R t0) <= bpow radix2 1022 -> B2R t0 < B2R t1 ->
  0 < B2R dt <= bpow radix2 (-55) * Rabs (B2R t0) -> adams_bashforth fuel F t0 t1 y0 order dt w <> (w', Ok sol).
Proof. exact (fun pw HL HE St => @ab_stuck64 pw HL HE St). Qed.
Print Assumptions C112_adams_bashforth_lost_step_never_returns.
Theorem C112_bdf_lost_step_never_succeeds :
  forall pw (HL : LinAlg f64) (HE : Env f64) (St : Type) (F : functor f64 St) fuel (t0 t1 : f64) y0 order (dt : f64) w w' sol,
  let HS := F64Scalar pw in
  is_finite t0 = true -> is_finite t1 = true -> is_finite dt = true -> Rabs (B2R t0) <= bpow radix2 1022 -> B2R t0 < B2R t1 ->
  0 < B2R dt <= bpow radix2 (-55) * Rabs (B2R t0) -> bdf fuel F t0 t1 y0 order dt w = (w', Ok sol) -> bo_status sol <> SUCCESS.
Proof. exact (fun pw HL HE St => @bdf_stuck64 pw HL HE St). Qed.
Print Assumptions C112_bdf_lost_step_never_succeeds.
(** From 2^53 to 2^54 in steps of 1/4: *)
Example C112_example : is_finite (dyadic 1 53) = true /\ is_finite (dyadic 1 54) = true /\ is_finite (dyadic 1 (-2)) = true /\
  Rabs (B2R (dyadic 1 53)) <= bpow radix2 1022 /\ B2R (dyadic 1 53) < B2R (dyadic 1 54) /\ 0 < B2R (dyadic 1 (-2)) <= bpow radix2 (-55) * Rabs (B2R (dyadic 1 53)).
Proof. exact stuck64_example. Qed.
