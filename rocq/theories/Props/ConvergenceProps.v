(** Property theorems about convergence (C81-C83, C86, C87). *)
From Coq Require Import Reals Lra.
From Verif Require Import Model.Base Model.Scalar Model.LinAlg Model.Enums Model.Options Model.Coeffs Model.ErkCoeffs Model.Erk Model.IrkCoeffs Model.Newton Model.Irk Model.Multistep.
From Verif Require Import Spec.Sums Spec.Observe Spec.Methods Spec.NewtonSpec Spec.IrkSpec Spec.IrkTotalSpec Spec.ConvergenceSpec.
From Verif Require Import Proofs.ExactInstance Proofs.ErkExamples Proofs.ConvergenceErk Proofs.ConvergenceAdaptive Proofs.EmbeddedError Proofs.ConvergenceExamples.
From Verif Require Import Proofs.ChoiceInstance Proofs.ChoiceLU Proofs.TablesGeneric Proofs.IrkTotalExamples Proofs.IrkShort Proofs.ConvergenceIrk Proofs.ConvergenceIrkExamples Proofs.ShortSteps.
Local Open Scope R_scope.

(** C81.  The explicit integrator converges with the order of its method: an order-p method, a right-hand side with P <= p
    bounded derivatives near the solution.  Whatever produced the steps, fixed or adaptive, if none is longer than H ... *)
Theorem C81_erk_converges :
  forall m p p2 P n f phi t0 t1 r, In (m, p, p2) explicit_orders -> (1 <= P <= p)%nat -> t0 < t1 -> 0 < r ->
  solves n f t0 t1 phi -> smooth_near P n r t0 t1 f phi ->
  exists h0 C, 0 < h0 /\ 0 <= C /\
  forall (HE : Env R) (HL : LinAlg R) (HX : ExactProducts HL) (St : Type) (F : functor R St), computes F f ->
  forall fuel opts oo dt w w' sol H, (ndebug = false \/ 0 < dt) ->
  erk_odeint fuel F t0 t1 (phi t0) opts oo m dt w = (w', Ok sol) ->
  steps_at_most H (eo_t_vals sol) -> 0 <= H <= h0 ->
  forall k q, (k < length (eo_t_vals sol))%nat -> (q < n)%nat ->
  Rabs (ventry (nth k (eo_y_vals sol) []) q - ventry (phi (nth k (eo_t_vals sol) 0)) q) <= C * H ^ P.
Proof. exact erk_converges. Qed.
Print Assumptions C81_erk_converges.

(** ... fixed steps: for every small dt the run succeeds, ends at t1, and every recorded state, in particular the last one,
    is within C dt^P of the solution. *)
Theorem C81_erk_fixed_converges :
  forall m p p2 P n f phi t0 t1 r, In (m, p, p2) explicit_orders -> (1 <= P <= p)%nat -> t0 < t1 -> 0 < r ->
  solves n f t0 t1 phi -> smooth_near P n r t0 t1 f phi -> preserves_dim f n ->
  exists h0 C, 0 < h0 /\ 0 <= C /\
  forall (HE : Env R) (HL : LinAlg R) (HX : ExactProducts HL) (St : Type) (F : functor R St), total_fun F f ->
  forall opts oo dt, (write_to_file oo = true -> output_stream oo <> None) -> eo_adaptive opts = false \/ ~ In m explicit_embedded ->
  (eo_max_steps opts < 0)%Z -> 0 < dt <= h0 ->
  forall w, exists w' sol, (exists fuel0, forall fuel, (fuel0 <= fuel)%nat -> erk_odeint fuel F t0 t1 (phi t0) opts oo m dt w = (w', Ok sol)) /\
  eo_status sol = SUCCESS /\ last (eo_t_vals sol) t0 = t1 /\
  (forall k q, (k < length (eo_t_vals sol))%nat -> (q < n)%nat ->
    Rabs (ventry (nth k (eo_y_vals sol) []) q - ventry (phi (nth k (eo_t_vals sol) 0)) q) <= C * dt ^ P) /\
  forall q, (q < n)%nat -> Rabs (ventry (last (eo_y_vals sol) []) q - ventry (phi t1) q) <= C * dt ^ P.
Proof. exact erk_fixed_converges. Qed.
Print Assumptions C81_erk_fixed_converges.

(** ... adaptive steps limited by max_dt. *)
Theorem C81_erk_adaptive_converges :
  forall m p p2 P n f phi t0 t1 r, In (m, p, p2) explicit_orders -> (1 <= P <= p)%nat -> t0 < t1 -> 0 < r ->
  solves n f t0 t1 phi -> smooth_near P n r t0 t1 f phi ->
  exists h0 C, 0 < h0 /\ 0 <= C /\
  forall (HE : Env R) (HL : LinAlg R) (HX : ExactProducts HL) (St : Type) (F : functor R St), computes F f ->
  forall fuel opts oo dt w w' sol H, erk_odeint fuel F t0 t1 (phi t0) opts oo m dt w = (w', Ok sol) ->
  eo_adaptive opts = true -> In m explicit_embedded -> 0 < dt <= H -> 0 < eo_max_dt opts <= H -> H <= h0 ->
  (forall k q, (k < length (eo_t_vals sol))%nat -> (q < n)%nat ->
    Rabs (ventry (nth k (eo_y_vals sol) []) q - ventry (phi (nth k (eo_t_vals sol) 0)) q) <= C * H ^ P).
Proof. exact erk_adaptive_converges. Qed.
Print Assumptions C81_erk_adaptive_converges.
(** y' = y^2 from 1/2, solved by 1/(2-t) and smooth of every order: a fixed-step run of the fifth-order Dormand-Prince formula with
    1000, 2000, ... steps ends within C dt^5 of 1. *)
Example C81_example : solves 1 sq_f 0 1 sq_phi /\ (forall p, smooth_near p 1 1 0 1 sq_f sq_phi) /\
  exists h0 C, 0 < h0 /\ forall dt, 0 < dt <= h0 -> exists fuel w' sol,
    @erk_odeint R RScalar exact_LA (exr_E false) _ fuel (exr_fun sq_f) 0 1 [/ (2 - 0)] (exr_opts false) output_options_default DORMAND_PRINCE_54 dt (World tt []) = (w', Ok sol) /\
    Rabs (ventry (last (eo_y_vals sol) []) 0 - / (2 - 1)) <= C * dt ^ 5.
Proof.
  split; [exact sq_solves|]. split; [exact sq_smooth|].
  destruct (C81_erk_fixed_converges DORMAND_PRINCE_54 5 (Some 4)%nat 5 1 sq_f sq_phi 0 1 1 ltac:(simpl; tauto) ltac:(lia) ltac:(lra) ltac:(lra) sq_solves (sq_smooth 5) ltac:(intros t y Hy; unfold sq_f; rewrite map_length; exact Hy))
    as (h0 & C & Hh & _ & K).
  exists h0, C. split; [exact Hh|]. intros dt Hdt.
  destruct (K (exr_E false) exact_LA exact_LA_products unit (exr_fun sq_f) (exr_total sq_f) (exr_opts false) output_options_default dt ltac:(discriminate) (or_introl eq_refl) ltac:(reflexivity) Hdt (World tt []))
    as (w' & sol & (fuel & Hf) & _ & _ & _ & He).
  exists fuel, w', sol. split; [exact (Hf fuel (le_n _))|exact (He 0%nat ltac:(lia))].
Qed.

(** C82.  The error estimate of an adaptive run is of the order of the comparison formula: for steps of at most h0, the estimate recorded
    with a step of size h is at most C h^(q2+1). *)
Theorem C82_erk_error_estimate_order :
  forall m p q2 n f phi t0 t1 r, In (m, p, Some q2) explicit_orders -> t0 < t1 -> 0 < r ->
  solves n f t0 t1 phi -> smooth_near q2 n r t0 t1 f phi ->
  exists h0 C, 0 < h0 /\ 0 <= C /\
  forall (HE : Env R) (HL : LinAlg R) (HX : ExactProducts HL) (St : Type) (F : functor R St), computes F f ->
  forall fuel opts oo dt w w' sol, (ndebug = false \/ 0 < dt) ->
  erk_odeint fuel F t0 t1 (phi t0) opts oo m dt w = (w', Ok sol) -> eo_adaptive opts = true ->
  steps_at_most h0 (eo_t_vals sol) ->
  forall k q, (S k < length (eo_t_vals sol))%nat -> (q < n)%nat ->
  Rabs (ventry (nth (S k) (eo_err_est sol) []) q) <= C * (nth (S k) (eo_t_vals sol) 0 - nth k (eo_t_vals sol) 0) ^ S q2.
Proof. exact erk_estimates. Qed.
Print Assumptions C82_erk_error_estimate_order.
(** y' = cos t, for which adaptive runs limited to small steps exist. *)
Example C82_example : solves 1 cos_f 0 1 cos_phi /\ smooth_near 4 1 1 0 1 cos_f cos_phi /\
  forall h, 0 < h -> exists fuel w' sol,
  @erk_odeint R RScalar exact_LA (exr_E false) _ fuel (exr_fun cos_f) 0 1 (cos_phi 0) (ErkOptions true (1 / 10) (1 / 10) h (-1)) output_options_default CASH_KARP_54 h (World tt []) = (w', Ok sol) /\
  steps_at_most h (eo_t_vals sol).
Proof. split; [exact cos_solves|]. split; [apply cos_smooth|]. intros h Hh. apply cos_limited; [simpl; tauto|exact Hh]. Qed.

(** C83.  An adaptive run with limited steps returns on every problem that has a solution near which the right-hand side is smooth:
    it succeeds, ends at t1, and is within C H^P of the solution all along.  No global bound on the right-hand side is needed. *)
Theorem C83_erk_adaptive_solves :
  forall m p p2 P n f phi t0 t1 r, In (m, p, p2) explicit_orders -> (1 <= P <= p)%nat -> t0 < t1 -> 0 < r -> (0 < n)%nat ->
  solves n f t0 t1 phi -> smooth_near P n r t0 t1 f phi -> preserves_dim f n ->
  exists h0 C, 0 < h0 /\ 0 <= C /\
  forall (HE : Env R) (HL : LinAlg R) (HX : ExactProducts HL) (St : Type) (F : functor R St), total_fun F f ->
  forall opts oo dt H, (write_to_file oo = true -> output_stream oo <> None) -> eo_adaptive opts = true -> In m explicit_embedded ->
  0 < eo_abs_tol opts -> 0 <= eo_rel_tol opts -> (eo_max_steps opts < 0)%Z -> 0 < dt <= H -> 0 < eo_max_dt opts <= H -> H <= h0 ->
  forall w, exists w' sol, (exists fuel0, forall fuel, (fuel0 <= fuel)%nat -> erk_odeint fuel F t0 t1 (phi t0) opts oo m dt w = (w', Ok sol)) /\
  eo_status sol = SUCCESS /\ last (eo_t_vals sol) t0 = t1 /\
  (forall k q, (k < length (eo_t_vals sol))%nat -> (q < n)%nat ->
    Rabs (ventry (nth k (eo_y_vals sol) []) q - ventry (phi (nth k (eo_t_vals sol) 0)) q) <= C * H ^ P).
Proof. exact erk_adaptive_solves. Qed.
Print Assumptions C83_erk_adaptive_solves.
(** y' = y^2 from 1/2, whose right-hand side is not bounded. *)
Example C83_example : exists h0 C, 0 < h0 /\ forall h, 0 < h <= h0 -> exists fuel w' sol,
  @erk_odeint R RScalar exact_LA (exr_E false) _ fuel (exr_fun sq_f) 0 1 [/ (2 - 0)] (ErkOptions true (1 / 10) (1 / 10) h (-1)) output_options_default DORMAND_PRINCE_54 h (World tt []) = (w', Ok sol) /\
  eo_status sol = SUCCESS /\ forall k, (k < length (eo_t_vals sol))%nat -> Rabs (ventry (nth k (eo_y_vals sol) []) 0 - / (2 - nth k (eo_t_vals sol) 0)) <= C * h ^ 5.
Proof.
  destruct (C83_erk_adaptive_solves DORMAND_PRINCE_54 5 (Some 4)%nat 5 1 sq_f sq_phi 0 1 1 ltac:(simpl; tauto) ltac:(lia) ltac:(lra) ltac:(lra) ltac:(lia) sq_solves (sq_smooth 5) ltac:(intros t y Hy; unfold sq_f; rewrite map_length; exact Hy))
    as (h0 & C & Hh & _ & K).
  exists h0, C. split; [exact Hh|]. intros h Hh'.
  destruct (K (exr_E false) exact_LA exact_LA_products unit (exr_fun sq_f) (exr_total sq_f) (ErkOptions true (1 / 10) (1 / 10) h (-1)) output_options_default h h
    ltac:(discriminate) eq_refl ltac:(simpl; tauto) ltac:(simpl; lra) ltac:(simpl; lra) ltac:(reflexivity) ltac:(lra) ltac:(simpl; lra) ltac:(lra) (World tt []))
    as (w' & sol & (fuel & Hf) & Hok & _ & He).
  exists fuel, w', sol. split; [exact (Hf fuel (le_n _))|]. split; [exact Hok|]. intros k Hk. exact (He k 0%nat Hk ltac:(lia)).
Qed.

(** C86.  The implicit integrator converges with the order of its method, up to what the stopping criteria of Newton's iteration
    leave: for tolerances of at most tau, the state after k steps of at most H is within C (H^P + k tau) of the solution. *)
Theorem C86_irk_converges :
  forall (HE : Env R) m p P n f phi t0 t1 r L, In (m, p) implicit_orders -> In m implicit_runnable -> (1 <= P <= p)%nat -> t0 < t1 -> 0 < r -> 0 <= L ->
  solves n f t0 t1 phi -> smooth_near P n r t0 t1 f phi -> lipschitz_in n L t0 t1 f ->
  exists h0 C, 0 < h0 /\ 0 <= C /\
  forall (LA : LinAlg R) (HP : ExactProducts LA) (HX : ExactSolve LA) (HLU : ExactLU LA) (HI : ExactInverse LA) (St : Type) (F : functor R St),
  computes F f -> jac_matrices F -> jac_bounded F n L t0 t1 ->
  forall fuel opts oo nopts dt w w' sol H tau, (ndebug = false \/ 0 < dt) ->
  irk_odeint fuel F t0 t1 (phi t0) opts oo m dt w = (w', Ok sol) ->
  store_in_vectors oo = true -> output_interval oo = 1%Z ->
  io_newton opts = Some nopts -> Rabs (o_tol nopts) <= tau -> Rabs (o_dx_delta nopts) <= tau ->
  steps_at_most H (io_t_vals sol) -> 0 <= H <= h0 -> INR (length (io_t_vals sol)) * tau <= h0 ->
  forall k q, (k < length (io_t_vals sol))%nat -> (q < n)%nat ->
  Rabs (ventry (nth k (io_y_vals sol) []) q - ventry (phi (nth k (io_t_vals sol) 0)) q) <= C * (H ^ P + INR k * tau).
Proof. exact (fun HE => @irk_converges HE). Qed.
Print Assumptions C86_irk_converges.
(** ... steps limited by max_dt, their number by max_steps: the hypotheses speak of the options alone. *)
Theorem C86_irk_adaptive_converges :
  forall (HE : Env R) m p P n f phi t0 t1 r L, In (m, p) implicit_orders -> In m implicit_runnable -> (1 <= P <= p)%nat -> t0 < t1 -> 0 < r -> 0 <= L ->
  solves n f t0 t1 phi -> smooth_near P n r t0 t1 f phi -> lipschitz_in n L t0 t1 f ->
  exists h0 C, 0 < h0 /\ 0 <= C /\
  forall (LA : LinAlg R) (HP : ExactProducts LA) (HX : ExactSolve LA) (HLU : ExactLU LA) (HI : ExactInverse LA) (St : Type) (F : functor R St),
  computes F f -> jac_matrices F -> jac_bounded F n L t0 t1 ->
  forall fuel opts oo nopts dt w w' sol H tau,
  irk_odeint fuel F t0 t1 (phi t0) opts oo m dt w = (w', Ok sol) ->
  store_in_vectors oo = true -> output_interval oo = 1%Z ->
  io_newton opts = Some nopts -> Rabs (o_tol nopts) <= tau -> Rabs (o_dx_delta nopts) <= tau ->
  0 < dt <= H -> 0 < io_max_dt opts <= H -> H <= h0 -> (0 <= io_max_steps opts)%Z -> IZR (io_max_steps opts + 2) * tau <= h0 ->
  forall k q, (k < length (io_t_vals sol))%nat -> (q < n)%nat ->
  Rabs (ventry (nth k (io_y_vals sol) []) q - ventry (phi (nth k (io_t_vals sol) 0)) q) <= C * (H ^ P + INR k * tau).
Proof. exact (fun HE => @irk_adaptive_converges HE). Qed.
Print Assumptions C86_irk_adaptive_converges.
(** y' = (cos t, -cos t) from (1, 2) with the five-stage Lobatto formula: for all small h and tau there is a run, and its states are within
    C (h^8 + k tau) of (1 + sin t, 2 - sin t). *)
Example C86_example : exists h0 C, 0 < h0 /\ forall h tau, 0 < h <= h0 -> 0 < tau <= h0 / 102 -> exists fuel w' sol,
  @irk_odeint R RScalar choice_LA it_E unit fuel (it_F cos) 0 2 [1 + sin 0; 2 - sin 0] (ic_opts h tau) output_options_default LOBATTO_IIIC_85 h (World tt []) = (w', Ok sol) /\
  forall k, (k < length (io_t_vals sol))%nat -> Rabs (ventry (nth k (io_y_vals sol) []) 0 - (1 + sin (nth k (io_t_vals sol) 0))) <= C * (h ^ 8 + INR k * tau).
Proof.
  destruct (C86_irk_adaptive_converges it_E LOBATTO_IIIC_85 8 8 2 (it_f cos) ic_phi 0 2 1 0 ltac:(unfold implicit_orders; simpl; tauto) ltac:(unfold implicit_runnable; simpl; tauto) ltac:(lia) ltac:(lra) ltac:(lra) ltac:(lra) ic_solves (ic_smooth 8) ic_lipschitz)
    as (h0 & C & Hh & _ & K).
  exists h0, C. split; [exact Hh|]. intros h tau Hh' Ht. destruct (ic_run LOBATTO_IIIC_85 h tau ltac:(unfold implicit_runnable; simpl; tauto) (proj1 Hh') (proj1 Ht)) as (fuel & w' & sol & E).
  exists fuel, w', sol. split; [exact E|]. intros k Hk.
  refine (K choice_LA _ _ _ _ unit (it_F cos) (it_computes cos) (it_matrices cos) ic_jac fuel (ic_opts h tau) output_options_default (ic_nopts tau) h (World tt []) w' sol h tau E eq_refl eq_refl eq_refl _ _ _ _ _ _ _ k 0%nat Hk ltac:(lia));
    cbn [ic_opts ic_nopts o_tol o_dx_delta io_max_dt io_max_steps]; change (100 + 2)%Z with 102%Z; rewrite ?Rabs_pos_eq; try lra; lia.
Qed.

(** C87.  Short steps make every linear system of the implicit integrator solvable: those of Newton's iteration and those of the error estimate. *)
Theorem C87_short_steps_solvable :
  forall n (sc : solver_coeffs R) K, 0 <= K -> exists hmax, 0 < hmax /\ forall St (F : functor R St),
  (forall t y J p q, jac_answers F t y J -> (p < n)%nat -> (q < n)%nat -> Rabs (mentry J p q) <= K) -> solvable_up_to F n sc hmax.
Proof. exact short_steps_solvable. Qed.
Print Assumptions C87_short_steps_solvable.
(** ... so that both multistep solvers return, for small steps, on every problem with bounded right-hand side and Jacobian. *)
Theorem C87_multistep_returns :
  forall (LA : LinAlg R) (HP : ExactProducts LA) (HX : ExactSolve LA) (HLU : ExactLU LA) (HI : ExactInverse LA) (HE : Env R) (St : Type)
    (F : functor R St) f n B K,
  ndebug = false -> (0 < n)%nat -> 0 <= K ->
  returns_dim F n -> computes F f -> returns_jac F n -> jac_matrices F -> bounded_rhs F n B K ->
  (forall t y J p q, jac_answers F t y J -> (p < n)%nat -> (q < n)%nat -> Rabs (mentry J p q) <= K) ->
  exists hs, 0 < hs /\ forall t0 t1 dt y0 order w, length y0 = n -> t0 < t1 -> 0 < dt <= hs ->
    ((1 <= order <= 5)%Z -> exists fuel w' sol, adams_bashforth fuel F t0 t1 y0 order dt w = (w', Ok sol)) /\
    ((1 <= order <= 6)%Z -> exists fuel w' sol, bdf fuel F t0 t1 y0 order dt w = (w', Ok sol)).
Proof. exact (fun LA HP HX HLU HI HE St => @multistep_bounded LA HP HX HLU HI HE St). Qed.
Print Assumptions C87_multistep_returns.
(** ... and so that the implicit integrator returns when max_dt is small. *)
Theorem C87_irk_returns :
  forall (LA : LinAlg R) (HP : ExactProducts LA) (HX : ExactSolve LA) (HLU : ExactLU LA) (HI : ExactInverse LA) (HE : Env R) (St : Type)
    (F : functor R St) f m n B K,
  ndebug = false -> In m implicit_runnable -> (0 < n)%nat -> 0 <= K ->
  returns_dim F n -> computes F f -> returns_jac F n -> jac_matrices F -> bounded_rhs F n B K ->
  (forall t y J p q, jac_answers F t y J -> (p < n)%nat -> (q < n)%nat -> Rabs (mentry J p q) <= K) ->
  exists h0, 0 < h0 /\ forall t0 t1 y0 opts oo dt nopts, length y0 = n -> t0 < t1 -> 0 < dt <= h0 -> 0 < io_max_dt opts <= h0 ->
    io_newton opts = Some nopts -> (2 <= o_maxit nopts)%Z -> 0 < o_tol nopts -> o_refresh_jac nopts <> 0%Z ->
    io_adaptive opts = true -> 0 < io_abs_tol opts -> 0 <= io_rel_tol opts -> usable_output oo ->
    (0 <= io_max_steps opts)%Z -> (o_maxit nopts * (16 + io_max_steps opts) < 2 ^ 34)%Z ->
    exists fuel0, forall fuel w, (fuel0 <= fuel)%nat -> exists w' sol, irk_odeint fuel F t0 t1 y0 opts oo m dt w = (w', Ok sol).
Proof. exact (fun LA HP HX HLU HI HE St => @irk_bounded LA HP HX HLU HI HE St). Qed.
Print Assumptions C87_irk_returns.
(** y' = (sin y_1, cos y_0) with its Jacobian. *)
Example C87_irk_example : exists h, 0 < h /\ forall t1 y0 w, 0 < t1 -> length y0 = 2%nat -> exists fuel w' sol,
  @irk_odeint R RScalar choice_LA it_E unit fuel sc_F 0 t1 y0 (ic_opts h (1 / 1000)) output_options_default RADAU_IIA_53 h w = (w', Ok sol).
Proof.
  destruct sc_hyps as (S1 & S2 & S3 & S4 & S5). assert (Hm : In RADAU_IIA_53 implicit_runnable) by (unfold implicit_runnable; simpl; tauto).
  destruct (C87_irk_returns choice_LA _ _ _ _ it_E unit sc_F sc_f RADAU_IIA_53 2 1 1 eq_refl Hm ltac:(lia) ltac:(lra) S1 S2 S3 S4 S5 sc_J_bound) as (h & Hh & K).
  exists h. split; [exact Hh|]. intros t1 y0 w Ht Hy.
  destruct (K 0 t1 y0 (ic_opts h (1 / 1000)) output_options_default h (ic_nopts (1 / 1000)) Hy Ht ltac:(lra) ltac:(cbn; lra) eq_refl) as (fuel & Hr); try reflexivity; try (cbn; lra); try (cbn; lia).
  - split; [cbn; lia|cbn; discriminate].
  - exists fuel. exact (Hr fuel w (le_n _)).
Qed.
Example C87_example : exists h, 0 < h /\ forall t1 y0 w, 0 < t1 -> length y0 = 2%nat -> forall order, (1 <= order <= 6)%Z -> exists fuel w' sol,
  @bdf R RScalar choice_LA it_E unit fuel sc_F 0 t1 y0 order h w = (w', Ok sol).
Proof.
  destruct sc_hyps as (S1 & S2 & S3 & S4 & S5).
  destruct (C87_multistep_returns choice_LA _ _ _ _ it_E unit sc_F sc_f 2 1 1 eq_refl ltac:(lia) ltac:(lra) S1 S2 S3 S4 S5 sc_J_bound) as (h & Hh & K).
  exists h. split; [exact Hh|]. intros t1 y0 w Ht Hy order Ho. exact (proj2 (K 0 t1 h y0 order w Hy Ht ltac:(lra)) Ho).
Qed.
