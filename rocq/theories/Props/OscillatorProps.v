(** Property theorems: what explicit, Adams-Bashforth and bdf runs do to the energy of an undamped oscillation (C139). *)
From Coq Require Import Reals Lra.
From Verif Require Import Model.Base Model.Scalar Model.LinAlg Model.Enums Model.Options Model.Erk Model.Irk Model.Multistep.
From Verif Require Import Spec.Sums Spec.Observe Spec.NewtonSpec Spec.ErkSpec Spec.Methods Spec.MultistepSpec Spec.BdfLinearSpec Spec.OscillatorSpec.
From Verif Require Import Proofs.ErkExamples Proofs.BdfLinearExamples Proofs.AbCovarianceExamples Proofs.Oscillator Proofs.OscillatorExamples.
Local Open Scope R_scope.

(** C139.  Let y_p' = om y_q, y_q' = - om y_p inside any problem, so that the solution conserves y_p^2 + y_q^2.  Every recorded step of an
    explicit run multiplies this energy by exactly the factor of the method at (om h)^2 for the size h of the step ... *)
Theorem C139_energy_of_explicit_steps :
  forall (HE : Env R) (HL : LinAlg R) (HX : ExactProducts HL) (St : Type) (F : functor R St) f fuel t0 t1 y0 opts oo m dt w w' sol p q om g,
  computes F f -> oscillating_pair (length y0) p q om f -> In (m, g) oscillator_factors ->
  erk_odeint fuel F t0 t1 y0 opts oo m dt w = (w', Ok sol) ->
  forall k, (S k < length (eo_y_vals sol))%nat ->
  energy p q (nth (S k) (eo_y_vals sol) []) = g ((om * (nth (S k) (eo_t_vals sol) 0 - nth k (eo_t_vals sol) 0)) ^ 2) * energy p q (nth k (eo_y_vals sol) []).
Proof. exact (fun HE HL HX St => @erk_energy HE HL HX St). Qed.
Print Assumptions C139_energy_of_explicit_steps.
(** an oscillator that drives a third component, with every explicit method *)
Example C139_example : (forall m, In m explicit_methods <-> exists g, In (m, g) oscillator_factors) /\
  forall m, In m explicit_methods -> computes (exr_fun os_f) os_f /\ oscillating_pair 3 0 1 (9 / 10) os_f /\ 0 < energy 0 1 [3; 4; 1] /\
  exists fuel w sol, os_run m fuel = (w, Ok sol) /\ forall k, (S k < length (eo_y_vals sol))%nat ->
    0 < (9 / 10 * (nth (S k) (eo_t_vals sol) 0 - nth k (eo_t_vals sol) 0)) ^ 2 <= 81 / 100.
Proof.
  split; [|exact os_runs]. intros m. split.
  - intros H. unfold explicit_methods in H. cbn [In] in H. unfold oscillator_factors. cbn [In]. destruct H as [<-|[<-|[<-|[<-|[<-|[<-|[]]]]]]]; eexists; eauto 10.
  - intros (g & H). unfold oscillator_factors in H. cbn [In] in H. destruct H as [H|[H|[H|[H|[H|[H|[]]]]]]]; apply (f_equal fst) in H; cbn [fst] in H; subst m; cbn; tauto.
Qed.

(** ... so that it never increases with RUNGE_KUTTA_4, BOGACKI_SHAMPINE_32 and DORMAND_PRINCE_54 while the steps are within the
    limits of the table, and increases with every step beyond them, and with every step of EXPLICIT_EULER and CASH_KARP_54 of any
    size and of FEHLBERG_54 up to (om h)^2 = 4: these three cannot be used for long undamped oscillations. *)
Theorem C139_energy_drift :
  forall (HE : Env R) (HL : LinAlg R) (HX : ExactProducts HL) (St : Type) (F : functor R St) f fuel t0 t1 y0 opts oo m dt w w' sol p q om,
  computes F f -> oscillating_pair (length y0) p q om f -> erk_odeint fuel F t0 t1 y0 opts oo m dt w = (w', Ok sol) ->
  let E k := energy p q (nth k (eo_y_vals sol) []) in let x k := (om * (nth (S k) (eo_t_vals sol) 0 - nth k (eo_t_vals sol) 0)) ^ 2 in
  (forall lim, In (m, lim) oscillator_stable -> (forall k, (S k < length (eo_y_vals sol))%nat -> x k <= lim) ->
     forall j k, (j <= k < length (eo_y_vals sol))%nat -> E k <= E j) /\
  ((forall k, (S k < length (eo_y_vals sol))%nat -> oscillator_unstable m (x k)) -> 0 < energy p q y0 ->
     forall j k, (j < k < length (eo_y_vals sol))%nat -> E j < E k).
Proof. exact (fun HE HL HX St => @erk_energy_drift HE HL HX St). Qed.
Print Assumptions C139_energy_drift.
(** The steps of the runs above are within the limits, or in the range of growth, of their method. *)
Example C139_example_drift : forall x, 0 < x <= 81 / 100 ->
  (forall m lim, In (m, lim) oscillator_stable -> x <= lim) /\ oscillator_unstable EXPLICIT_EULER x /\ oscillator_unstable CASH_KARP_54 x /\ oscillator_unstable FEHLBERG_54 x.
Proof.
  intros x Hx. split; [|unfold oscillator_unstable; intuition lra].
  intros m lim H. unfold oscillator_stable in H. cbn [In] in H. destruct H as [H|[H|[H|[]]]]; apply (f_equal snd) in H; cbn [snd] in H; subst lim; lra.
Qed.

(** The first-order multistep methods: adams_bashforth multiplies the energy by 1 + (om h)^2 with every step, and bdf divides it by
    that (after the copy of y0 that C59 describes). *)
Theorem C139_energy_of_first_order_multistep_runs :
  (forall (LA : LinAlg R) (HE : Env R) (St : Type) (F : functor R St) f fuel t0 t1 y0 dt w w' sol p q om,
   computes F f -> oscillating_pair (length y0) p q om f -> t0 < t1 -> adams_bashforth fuel F t0 t1 y0 1 dt w = (w', Ok sol) ->
   forall i, (S i < length (bo_y_vals sol))%nat ->
   energy p q (nth (S i) (bo_y_vals sol) []) = (1 + (om * Rmin dt (t1 - t0)) ^ 2) * energy p q (nth i (bo_y_vals sol) [])) /\
  (forall (LA : LinAlg R) (HP : ExactProducts LA) (HX : ExactSolve LA) (HN : ExactNorm LA) (HE : Env R) (St : Type) (F : functor R St) A g fuel t0 t1 y0 dt w w' sol p q om,
   affine_problem F (length y0) A g -> oscillating_pair (length y0) p q om (affine_rhs (length y0) A g) -> bdf_solvable (length y0) (Rmin dt (t1 - t0)) A ->
   t0 < t1 -> bdf fuel F t0 t1 y0 1 dt w = (w', Ok sol) ->
   forall i, (1 <= i)%nat -> (S i < length (bo_y_vals sol))%nat ->
   energy p q (nth i (bo_y_vals sol) []) = (1 + (om * Rmin dt (t1 - t0)) ^ 2) * energy p q (nth (S i) (bo_y_vals sol) [])).
Proof. exact (conj ab_energy bdf_energy). Qed.
Print Assumptions C139_energy_of_first_order_multistep_runs.
Example C139_example_multistep :
  (computes (exr_fun os_f) os_f /\ oscillating_pair 3 0 1 (9 / 10) os_f /\ exists fuel w sol, al_run os_f fuel 0 100 (1 / 4) [3; 4; 1] = (w, Ok sol)) /\
  affine_problem (la_F 2 os_A (fun _ _ => 0)) 2 os_A (fun _ _ => 0) /\ oscillating_pair 2 0 1 1000 (affine_rhs 2 os_A (fun _ _ => 0)) /\ (forall c, 0 <= c -> bdf_solvable 2 c os_A) /\
  exists h, 0 < h /\ forall dt, 0 < dt <= h -> exists fuel w sol, la_bdf 2 os_A (fun _ _ => 0) fuel 0 100 dt [3; 4] 1 = (w, Ok sol).
Proof. exact (conj os_ab_runs os_bdf_runs). Qed.
