(** Property theorems on what a run depends on (C115-C117): the memory the code leaves uninitialised, the clock, the origin of
    time, and whether assertions are compiled in.  [Env] holds what the model does not know about the platform: [ndebug] (is
    NDEBUG defined), [junk] (the content of uninitialised memory) and [clock] (what the clock shows).  See Spec/Determinism.v
    for [same_outcome], [erk_agree] and [irk_agree]. *)
From Coq Require Import Reals Lra.
From Verif Require Import Model.Base Model.Scalar Model.LinAlg Model.Newton Model.Enums Model.Options Model.Coeffs Model.ErkCoeffs Model.Erk Model.Irk Model.Multistep.
From Verif Require Import Spec.Observe Spec.NewtonSpec Spec.IrkSpec Spec.Methods Spec.Shift Spec.Determinism.
From Verif Require Import Proofs.ErkExamples Proofs.IrkExamples Proofs.MultistepExamples Proofs.NewtonExamples Proofs.DeterminismExamples Proofs.LockstepFinal.
From Verif Require Import Proofs.ChoiceInstance Proofs.ChoiceLU Proofs.IrkTotalExamples Proofs.ExactInstance.
Local Open Scope R_scope.

(** C115.  Whatever the uninitialised memory contains and the clock shows, a call ends in the same way and returns the same
    result, for every arithmetic, every linear-algebra backend and every functor (with hidden state, possibly throwing), except
    that an explicit run reports another elapsed time and other stages for its initial value, and an implicit run another elapsed
    time. *)
Theorem C115_erk_deterministic :
  forall (T : Type) (HS : Scalar T) (HL : LinAlg T) (E1 E2 : Env T) (St : Type) (F : functor T St), @ndebug T E1 = @ndebug T E2 ->
  forall fuel t0 t1 y0 opts oo m dt w,
  same_outcome erk_agree (@erk_odeint T HS HL E1 St fuel F t0 t1 y0 opts oo m dt w) (@erk_odeint T HS HL E2 St fuel F t0 t1 y0 opts oo m dt w).
Proof. exact (@same_erk). Qed.
Print Assumptions C115_erk_deterministic.
Theorem C115_irk_deterministic :
  forall (T : Type) (HS : Scalar T) (HL : LinAlg T) (E1 E2 : Env T) (St : Type) (F : functor T St), @ndebug T E1 = @ndebug T E2 ->
  forall fuel t0 t1 y0 opts oo m dt w,
  same_outcome irk_agree (@irk_odeint T HS HL E1 St fuel F t0 t1 y0 opts oo m dt w) (@irk_odeint T HS HL E2 St fuel F t0 t1 y0 opts oo m dt w).
Proof. exact (@same_irk). Qed.
Print Assumptions C115_irk_deterministic.
Theorem C115_multistep_deterministic :
  forall (T : Type) (HS : Scalar T) (HL : LinAlg T) (E1 E2 : Env T) (St : Type) (F : functor T St), @ndebug T E1 = @ndebug T E2 ->
  forall fuel t0 t1 y0 order dt w,
  same_outcome eq (@adams_bashforth T HS HL E1 St fuel F t0 t1 y0 order dt w) (@adams_bashforth T HS HL E2 St fuel F t0 t1 y0 order dt w) /\
  same_outcome eq (@bdf T HS HL E1 St fuel F t0 t1 y0 order dt w) (@bdf T HS HL E2 St fuel F t0 t1 y0 order dt w).
Proof.
  exact (fun T HS HL E1 E2 St F Hn fuel t0 t1 y0 order dt w =>
    conj (@same_ab T HS HL E1 E2 St F Hn fuel t0 t1 y0 order dt w) (@same_bdf T HS HL E1 E2 St F Hn fuel t0 t1 y0 order dt w)).
Qed.
Print Assumptions C115_multistep_deterministic.
(** Newton's method, unless it is asked to precondition: then it does depend on uninitialised memory
    (C53_preconditioner_uninitialised). *)
Theorem C115_newton_deterministic :
  forall (T : Type) (HS : Scalar T) (HL : LinAlg T) (E1 E2 : Env T) (St : Type) (G : nfunctor T St) x opts stats quiet s,
  o_precondition opts = false ->
  same_outcome eq (@newton_iterate T HS HL E1 St G x opts stats quiet s) (@newton_iterate T HS HL E2 St G x opts stats quiet s).
Proof. exact (@same_newton). Qed.
Print Assumptions C115_newton_deterministic.
(** The exception: what every explicit run reports as the stages of its initial value is uninitialised memory and nothing else. *)
Theorem C115_erk_initial_stages_uninitialised :
  forall (T : Type) (HS : Scalar T) (HL : LinAlg T) (HE : Env T) (St : Type) (F : functor T St) fuel t0 t1 y0 opts oo m dt w w' sol,
  erk_odeint fuel F t0 t1 y0 opts oo m dt w = (w', Ok sol) ->
  exists K0 K, eo_stages sol = K0 :: K /\ Forall (fun x => x = junk) K0.
Proof. exact (@erk_initial_stages). Qed.
Print Assumptions C115_erk_initial_stages_uninitialised.
(** The runs of C16, C40 and C59, for every content of memory and every clock; and two explicit runs in doubles that differ in
    the stages of the initial value (twelve numbers). *)
Example C115_example :
  (forall j c : f64,
    ex_summary (de_run1 (de_E false j c)) = Some (SUCCESS, 19, 6, 114, 14, 19)%nat /\
    ig_summary (de_run2 (de_E false j c)) = Some (SUCCESS, 13, 8, 0, 198, 59, 6, 5)%nat /\
    mg_summary (de_run3 (de_E false j c)) = Some (SUCCESS, 7, 7)%nat /\ mg_summary (de_run4 (de_E false j c)) = Some (SUCCESS, 7, 7)%nat) /\
  de_first (de_erk (@sZ f64 ex_S 0) (@sZ f64 ex_S 1)) = Some (SUCCESS, 14%nat, repeat true 12) /\
  de_first (de_erk (@sZ f64 ex_S 1) (@sZ f64 ex_S 7)) = Some (SUCCESS, 14%nat, repeat false 12).
Proof.
  exact (conj (fun j c => conj (de_first_run j c) (conj (de_second_run j c) (conj (de_third_run j c) (de_fourth_run j c)))) (conj de_erk0 de_erk1)).
Qed.

(** C116.  Over the reals, moving the interval of integration and the right-hand side by s moves the recorded times by s and
    changes nothing else: the implicit integrator (C34_erk_time_shift is the explicit one) and the multistep solvers. *)
Theorem C116_irk_time_shift :
  forall (HE : Env R) (HL : LinAlg R) (St : Type) (s : R) (F : functor R St) fuel t0 t1 y0 opts oo m dt st,
  match irk_odeint fuel F (t0 + s) (t1 + s) y0 opts oo m dt (World st []), irk_odeint fuel (shift_functor s F) t0 t1 y0 opts oo m dt (World st []) with
  | (w1, Ok a), (w2, Ok b) =>
      io_t_vals a = map (fun t => t + s) (io_t_vals b) /\ io_y_vals a = io_y_vals b /\ io_stages a = io_stages b /\
      io_err_est a = io_err_est b /\ io_err a = io_err b /\ io_status a = io_status b /\ io_count a = io_count b /\
      w_st w1 = w_st w2 /\ w_out w1 = shift_lines s (w_out w2)
  | (w1, Err e1), (w2, Err e2) => e1 = e2 /\ w_st w1 = w_st w2 /\ w_out w1 = shift_lines s (w_out w2)
  | _, _ => False
  end.
Proof. exact (fun HE HL St => @irk_shift HE HL St). Qed.
Print Assumptions C116_irk_time_shift.
Theorem C116_ab_time_shift :
  forall (HE : Env R) (HL : LinAlg R) (St : Type) (s : R) (F : functor R St) fuel t0 t1 y0 order dt st,
  match adams_bashforth fuel F (t0 + s) (t1 + s) y0 order dt (World st []), adams_bashforth fuel (shift_functor s F) t0 t1 y0 order dt (World st []) with
  | (w1, Ok a), (w2, Ok b) =>
      bo_t_vals a = map (fun t => t + s) (bo_t_vals b) /\ bo_y_vals a = bo_y_vals b /\ bo_status a = bo_status b /\ w_st w1 = w_st w2
  | (w1, Err e1), (w2, Err e2) => e1 = e2 /\ w_st w1 = w_st w2
  | _, _ => False
  end.
Proof. exact (fun HE HL St => @ab_shift HE HL St). Qed.
Print Assumptions C116_ab_time_shift.
Theorem C116_bdf_time_shift :
  forall (HE : Env R) (HL : LinAlg R) (St : Type) (s : R) (F : functor R St) fuel t0 t1 y0 order dt st,
  match bdf fuel F (t0 + s) (t1 + s) y0 order dt (World st []), bdf fuel (shift_functor s F) t0 t1 y0 order dt (World st []) with
  | (w1, Ok a), (w2, Ok b) =>
      bo_t_vals a = map (fun t => t + s) (bo_t_vals b) /\ bo_y_vals a = bo_y_vals b /\ bo_status a = bo_status b /\ w_st w1 = w_st w2
  | (w1, Err e1), (w2, Err e2) => e1 = e2 /\ w_st w1 = w_st w2
  | _, _ => False
  end.
Proof. exact (fun HE HL St => @bdf_shift HE HL St). Qed.
Print Assumptions C116_bdf_time_shift.
(** y' = (cos(t - s), - cos(t - s)), integrated from s on, with every implicit method that can run and every order *)
Example C116_example : forall s,
  (forall m, In m implicit_runnable -> exists fuel w' sol,
    @irk_odeint R RScalar choice_LA it_E unit fuel (it_F (de_g s)) (0 + s) (2 + s) [1; 2] (it_opts 1000) output_options_default m (1 / 10) (World tt []) = (w', Ok sol)) /\
  exists h, 0 < h /\
    (forall order, (1 <= order <= 5)%Z -> exists fuel w' sol, @adams_bashforth R RScalar choice_LA it_E unit fuel (it_F (de_g s)) (0 + s) (20 * h + s) [1; 2] order h (World tt []) = (w', Ok sol)) /\
    (forall order, (1 <= order <= 6)%Z -> exists fuel w' sol, @bdf R RScalar choice_LA it_E unit fuel (it_F (de_g s)) (0 + s) (20 * h + s) [1; 2] order h (World tt []) = (w', Ok sol)).
Proof. exact (fun s => conj (de_irk_shift s) (de_multistep_shift s)). Qed.

(** C117.  Assertions change nothing but whether they fail: an explicit run (or Adams-Bashforth of order one) that does not abort
    in a debug build ends in the same way, with the same result, in a release build.  (The implicit integrator and the other
    orders do not run at all in a release build: C39_ndebug_never_steps, C63_ndebug_never_returns.) *)
Theorem C117_erk_release_build :
  forall (T : Type) (HS : Scalar T) (HL : LinAlg T) (debug release : Env T) (St : Type) (F : functor T St) fuel t0 t1 y0 opts oo m dt w,
  @ndebug T debug = false -> @ndebug T release = true ->
  snd (@erk_odeint T HS HL debug St fuel F t0 t1 y0 opts oo m dt w) <> Err EAbort ->
  same_outcome erk_agree (@erk_odeint T HS HL debug St fuel F t0 t1 y0 opts oo m dt w) (@erk_odeint T HS HL release St fuel F t0 t1 y0 opts oo m dt w).
Proof. exact (@release_same_erk). Qed.
Print Assumptions C117_erk_release_build.
Theorem C117_ab_release_build :
  forall (T : Type) (HS : Scalar T) (HL : LinAlg T) (debug release : Env T) (St : Type) (F : functor T St) fuel t0 t1 y0 dt w,
  @ndebug T debug = false -> @ndebug T release = true ->
  snd (@adams_bashforth T HS HL debug St fuel F t0 t1 y0 1 dt w) <> Err EAbort ->
  same_outcome eq (@adams_bashforth T HS HL debug St fuel F t0 t1 y0 1 dt w) (@adams_bashforth T HS HL release St fuel F t0 t1 y0 1 dt w).
Proof. exact (@release_same_ab). Qed.
Print Assumptions C117_ab_release_build.
(** the runs of C115, in a release build *)
Example C117_example : forall j c : f64,
  ex_summary (de_run1 (de_E true j c)) = Some (SUCCESS, 19, 6, 114, 14, 19)%nat /\ mg_summary (de_run5 (de_E true j c)) = Some (SUCCESS, 7, 7)%nat.
Proof. exact (fun j c => conj (de_release j c) (de_release_ab j c)). Qed.
