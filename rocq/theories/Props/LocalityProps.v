(** Property theorems about what a run can depend on (C84, C85). *)
From Coq Require Import Reals Lra.
From Verif Require Import Model.Base Model.Scalar Model.LinAlg Model.Newton Model.Enums Model.Options Model.Erk Model.Irk Model.Multistep.
From Verif Require Import Spec.Sums Spec.Observe Spec.Methods Spec.ErkSpec Spec.IrkSpec Spec.LocalitySpec.
From Verif Require Import Proofs.ExactInstance Proofs.ChoiceInstance Proofs.ErkExamples Proofs.IrkTotalExamples Proofs.Locality Proofs.LocalityFinal Proofs.LocalityExamples.

(** C84.  In every arithmetic, and whatever the outcome: a run that made certain calls is repeated exactly - same outcome, same
    output file, same final state of the functor - with every functor that answers those calls in the same way. *)
Theorem C84_erk_depends_on_its_calls :
  forall (T : Type) (HS : Scalar T) (HL : LinAlg T) (HE : Env T) (St : Type) (F : functor T St) fuel t0 t1 y0 opts oo m dt w w' r,
  erk_odeint fuel (logged F) t0 t1 y0 opts oo m dt w = (w', r) ->
  exists calls, snd (w_st w') = snd (w_st w) ++ calls /\
  forall G, Forall (agree_at F G) calls -> erk_odeint fuel G t0 t1 y0 opts oo m dt (unlogged w) = (unlogged w', r).
Proof. exact (fun T HS HL HE St F fuel t0 t1 y0 opts oo m dt => local_all F (fun G => erk_odeint fuel G t0 t1 y0 opts oo m dt) (fun G => erk_odeint fuel G t0 t1 y0 opts oo m dt) (fun G => loc_erk F G fuel t0 t1 y0 opts oo m dt)). Qed.
Print Assumptions C84_erk_depends_on_its_calls.
Theorem C84_irk_depends_on_its_calls :
  forall (T : Type) (HS : Scalar T) (HL : LinAlg T) (HE : Env T) (St : Type) (F : functor T St) fuel t0 t1 y0 opts oo m dt w w' r,
  irk_odeint fuel (logged F) t0 t1 y0 opts oo m dt w = (w', r) ->
  exists calls, snd (w_st w') = snd (w_st w) ++ calls /\
  forall G, Forall (agree_at F G) calls -> irk_odeint fuel G t0 t1 y0 opts oo m dt (unlogged w) = (unlogged w', r).
Proof. exact (fun T HS HL HE St F fuel t0 t1 y0 opts oo m dt => local_all F (fun G => irk_odeint fuel G t0 t1 y0 opts oo m dt) (fun G => irk_odeint fuel G t0 t1 y0 opts oo m dt) (fun G => loc_irk F G fuel t0 t1 y0 opts oo m dt)). Qed.
Print Assumptions C84_irk_depends_on_its_calls.
Theorem C84_ab_depends_on_its_calls :
  forall (T : Type) (HS : Scalar T) (HL : LinAlg T) (HE : Env T) (St : Type) (F : functor T St) fuel t0 t1 y0 order dt w w' r,
  adams_bashforth fuel (logged F) t0 t1 y0 order dt w = (w', r) ->
  exists calls, snd (w_st w') = snd (w_st w) ++ calls /\
  forall G, Forall (agree_at F G) calls -> adams_bashforth fuel G t0 t1 y0 order dt (unlogged w) = (unlogged w', r).
Proof. exact (fun T HS HL HE St F fuel t0 t1 y0 order dt => local_all F (fun G => adams_bashforth fuel G t0 t1 y0 order dt) (fun G => adams_bashforth fuel G t0 t1 y0 order dt) (fun G => loc_ab F G fuel t0 t1 y0 order dt)). Qed.
Print Assumptions C84_ab_depends_on_its_calls.
(** The oscillator in binary64: 114 calls, all of the right-hand side; so no run depends on its Jacobian. *)
Example C84_example : exists w' r,
  @erk_odeint f64 ex_S ex_LA (ex_E false) _ 50 (logged ex_osc) (@sZ _ ex_S 0) (@sZ _ ex_S 1) [@sZ _ ex_S 1; @sZ _ ex_S 0] (ex_opts true (-1)) ex_file CASH_KARP_54 (@slit _ ex_S 5 (-1)) (World (tt, []) []) = (w', r) /\
  length (snd (w_st w')) = 114%nat /\
  forall jac, @erk_odeint f64 ex_S ex_LA (ex_E false) _ 50 (Functor (f_fun ex_osc) jac) (@sZ _ ex_S 0) (@sZ _ ex_S 1) [@sZ _ ex_S 1; @sZ _ ex_S 0] (ex_opts true (-1)) ex_file CASH_KARP_54 (@slit _ ex_S 5 (-1)) (World tt []) = (unlogged w', r).
Proof. exact (no_jacobian (HS := ex_S) (HL := ex_LA) (HE := ex_E false) ex_osc _ _ _ _ _ _ _ _ _ ex_calls_run). Qed.

Local Open Scope R_scope.
(** C85.  In exact arithmetic every evaluation, whatever the outcome of the run, is at a time between t0 and t1 ... *)
Theorem C85_erk_evaluates_in_the_interval :
  forall (HL : LinAlg R) (HE : Env R) (St : Type) (F : functor R St) fuel t0 t1 y0 oo m dt, (ndebug = false \/ (t0 < t1 /\ 0 < dt)) ->
  forall opts w w' r, erk_odeint fuel (logged F) t0 t1 y0 opts oo m dt w = (w', r) ->
  exists calls, snd (w_st w') = snd (w_st w) ++ calls /\ Forall (fun c => t0 <= call_time c <= t1) calls.
Proof. exact @window_erk. Qed.
Print Assumptions C85_erk_evaluates_in_the_interval.
Theorem C85_irk_evaluates_in_the_interval :
  forall (HL : LinAlg R) (HE : Env R) (St : Type) (F : functor R St) fuel t0 t1 y0 oo m dt, (ndebug = false \/ (t0 < t1 /\ 0 < dt)) ->
  forall opts w w' r, irk_odeint fuel (logged F) t0 t1 y0 opts oo m dt w = (w', r) ->
  exists calls, snd (w_st w') = snd (w_st w) ++ calls /\ Forall (fun c => t0 <= call_time c <= t1) calls.
Proof. exact @window_irk. Qed.
Print Assumptions C85_irk_evaluates_in_the_interval.
(** ... so two problems that agree between t0 and t1 have the same run. *)
Theorem C85_erk_outside_irrelevant :
  forall (HL : LinAlg R) (HE : Env R) (St : Type) (F : functor R St) fuel t0 t1 y0 oo m dt, (ndebug = false \/ (t0 < t1 /\ 0 < dt)) ->
  forall G, (forall c, t0 <= call_time c <= t1 -> agree_at F G c) ->
  forall opts w, erk_odeint fuel F t0 t1 y0 opts oo m dt w = erk_odeint fuel G t0 t1 y0 opts oo m dt w.
Proof. exact @same_erk. Qed.
Print Assumptions C85_erk_outside_irrelevant.
Theorem C85_irk_outside_irrelevant :
  forall (HL : LinAlg R) (HE : Env R) (St : Type) (F : functor R St) fuel t0 t1 y0 oo m dt, (ndebug = false \/ (t0 < t1 /\ 0 < dt)) ->
  forall G, (forall c, t0 <= call_time c <= t1 -> agree_at F G c) ->
  forall opts w, irk_odeint fuel F t0 t1 y0 opts oo m dt w = irk_odeint fuel G t0 t1 y0 opts oo m dt w.
Proof. exact @same_irk. Qed.
Print Assumptions C85_irk_outside_irrelevant.
(** y' = (cos t, - cos t) up to t = 2 and something else afterwards. *)
Example C85_example : exists fuel w' sol,
  @irk_odeint R RScalar choice_LA it_E unit fuel (it_F (fun t => if Rlt_dec 2 t then 100 else cos t)) 0 2 [1; 0] (it_opts 1000) output_options_default RADAU_IIA_53 (1 / 10) (World tt []) = (w', Ok sol) /\
  @irk_odeint R RScalar choice_LA it_E unit fuel (it_F cos) 0 2 [1; 0] (it_opts 1000) output_options_default RADAU_IIA_53 (1 / 10) (World tt []) = (w', Ok sol).
Proof.
  destruct (it_run cos it_cos RADAU_IIA_53 [1; 0] ltac:(simpl; tauto) eq_refl) as (fuel & w' & sol & E). exists fuel, w', sol. split; [|exact E]. rewrite <- E. symmetry.
  apply C85_irk_outside_irrelevant; [left; reflexivity|]. intros [t y|t y] Ht s; cbn [call_time] in Ht; [|reflexivity].
  unfold it_F, it_f. cbn [f_fun]. destruct (Rlt_dec 2 t); [lra|reflexivity].
Qed.
