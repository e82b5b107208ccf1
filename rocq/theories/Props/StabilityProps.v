(** Property theorems: linear problems whose solutions do not grow (C89, C90, C96). *)
From Coq Require Import Reals Lra.
From Verif Require Import Model.Base Model.Scalar Model.LinAlg Model.Newton Model.Enums Model.Options Model.Coeffs Model.ErkCoeffs Model.IrkCoeffs Model.Erk Model.Irk.
From Verif Require Import Spec.Sums Spec.Observe Spec.NewtonSpec Spec.IrkSpec Spec.IrkTotalSpec Spec.Methods Spec.StabilitySpec.
From Verif Require Import Proofs.ChoiceInstance Proofs.ChoiceLU Proofs.IrkTotalExamples Proofs.StabilityRuns Proofs.StabilityExamples Proofs.ExactInstance Proofs.ErkExamples Proofs.StabilityErk.
Local Open Scope R_scope.

(** C89.  When <G x, x> <= - mu |x|^2, the states an implicit run on y' = G y records do not grow whatever the step sizes: between
    recorded points i < j the squared norm falls at least by the factor 1 + 2 mu b (t_j - t_i), where b is the last weight of the
    method. *)
Theorem C89_irk_linear_decay :
  forall (LA : LinAlg R) (HP : ExactProducts LA) (HX : ExactSolve LA) (HLU : ExactLU LA) (HI : ExactInverse LA) (HE : Env R) (St : Type)
    (F : functor R St) n G m b mu fuel t0 t1 y0 opts oo dt w w' sol,
  In (m, b) last_weights -> computes F (linear_rhs n G) -> jac_is F n G -> length y0 = n ->
  0 <= mu -> damped_by mu n G -> (ndebug = false \/ (t0 < t1 /\ 0 < dt)) ->
  irk_odeint fuel F t0 t1 y0 opts oo m dt w = (w', Ok sol) ->
  length (io_t_vals sol) = length (io_y_vals sol) /\
  forall i j, (i < j)%nat -> (j < length (io_y_vals sol))%nat -> nth i (io_t_vals sol) 0 <= nth j (io_t_vals sol) 0 /\
    (1 + 2 * mu * b * (nth j (io_t_vals sol) 0 - nth i (io_t_vals sol) 0)) * norm2 n (nth j (io_y_vals sol) []) <= norm2 n (nth i (io_y_vals sol) []).
Proof.
  intros LA HP HX HLU HI HE St F n G m b mu fuel t0 t1 y0 opts oo dt w w' sol Hm HF HJ Hn Hmu HG Hs Hrun.
  exact (linear_decay F n G m b Hm (damped_dissipative mu n G Hmu HG) HF HJ mu fuel t0 t1 y0 opts oo dt w w' sol Hmu HG Hn Hs Hrun).
Qed.
Print Assumptions C89_irk_linear_decay.

(** C90.  On such a problem an adaptive run with a step limit returns, for every interval and first step. *)
Theorem C90_irk_linear_returns :
  forall (LA : LinAlg R) (HP : ExactProducts LA) (HX : ExactSolve LA) (HLU : ExactLU LA) (HI : ExactInverse LA) (HE : Env R) (St : Type)
    (F : functor R St) n G m b t0 t1 y0 opts oo dt nopts,
  In (m, b) last_weights -> dissipative n G -> computes F (linear_rhs n G) -> jac_is F n G -> returns_dim F n -> returns_jac F n ->
  ndebug = false -> io_newton opts = Some nopts -> (2 <= o_maxit nopts)%Z -> 0 < o_tol nopts -> o_refresh_jac nopts <> 0%Z ->
  io_adaptive opts = true -> 0 < io_abs_tol opts -> 0 <= io_rel_tol opts -> usable_output oo -> 0 < dt -> t0 < t1 -> (0 < n)%nat -> length y0 = n ->
  (0 <= io_max_steps opts)%Z -> (o_maxit nopts * (16 + io_max_steps opts) < 2 ^ 34)%Z ->
  exists fuel0, forall fuel w, (fuel0 <= fuel)%nat -> exists w' sol, irk_odeint fuel F t0 t1 y0 opts oo m dt w = (w', Ok sol).
Proof.
  intros LA HP HX HLU HI HE St F n G m b t0 t1 y0 opts oo dt nopts Hm HG HF HJ Hd Hj H1 H2 H3 H4 H5 H6 H7 H8 H9 H10 H11 H12 H13 H14 H15.
  exact (linear_returns F n G m b Hm HG HF HJ t0 t1 y0 opts oo dt nopts H1 H2 H3 H4 H5 H6 H7 H8 H9 H10 H11 H12 H13 Hd Hj H14 H15).
Qed.
Print Assumptions C90_irk_linear_returns.

(** The stiff oscillator with G = [-1 -1000; 1000 -1] and the first step 10: *)
Example C90_example : forall m b, In (m, b) last_weights -> exists fuel w' sol,
  @irk_odeint R RScalar choice_LA it_E unit fuel so_F 0 1000 [1; 2] (it_opts 1000) output_options_default m 10 (World tt []) = (w', Ok sol).
Proof.
  intros m b Hm. destruct (C90_irk_linear_returns choice_LA _ _ _ _ it_E unit so_F 2 so_G m b 0 1000 [1; 2] (it_opts 1000) output_options_default 10 it_nopts) as (fuel & Hr);
    try reflexivity; try assumption; try (cbn; lra); try (cbn; lia).
  - apply so_damped. lra.
  - apply so_computes.
  - apply so_jac.
  - apply so_dim.
  - apply so_returns_jac.
  - split; [cbn; lia|cbn; discriminate].
  - exists fuel. exact (Hr fuel (World tt []) (le_n _)).
Qed.
Example C89_example : forall m b, In (m, b) last_weights -> exists fuel w' sol,
  @irk_odeint R RScalar choice_LA it_E unit fuel so_F 0 1000 [1; 2] (it_opts 1000) output_options_default m 10 (World tt []) = (w', Ok sol) /\
  forall i j, (i < j)%nat -> (j < length (io_y_vals sol))%nat ->
    (1 + 2 * 1 * b * (nth j (io_t_vals sol) 0 - nth i (io_t_vals sol) 0)) * norm2 2 (nth j (io_y_vals sol) []) <= norm2 2 (nth i (io_y_vals sol) []).
Proof.
  intros m b Hm. destruct (C90_example m b Hm) as (fuel & w' & sol & Hrun). exists fuel, w', sol. split; [exact Hrun|]. intros i j Hi Hj.
  apply (C89_irk_linear_decay choice_LA _ _ _ _ it_E unit so_F 2 so_G m b 1 fuel 0 1000 [1; 2] (it_opts 1000) output_options_default 10 (World tt []) w' sol Hm so_computes so_jac eq_refl Rle_0_1 (so_damped 1 (Rle_refl _)) (or_introl eq_refl) Hrun); assumption.
Qed.

(** C96.  An explicit run on y' = lambda y, lambda <= 0: a step of size h does not grow while -lambda h is at most the first number the
    table gives for its method, and grows when -lambda h lies beyond the second (for Fehlberg's formula up to 12, and again from the
    third on).  So no explicit method keeps the bound of C89 for every step size. *)
Theorem C96_erk_linear_intervals :
  forall (HE : Env R) (HL : LinAlg R) (HX : ExactProducts HL) (St : Type) (F : functor R St) f, computes F f ->
  forall fuel t0 t1 y0 opts oo m dt w w' sol, erk_odeint fuel F t0 t1 y0 opts oo m dt w = (w', Ok sol) ->
  forall lam, (forall t y q, length y = length y0 -> (q < length y0)%nat -> ventry (f t y) q = lam * ventry y q) ->
  forall z1 z2 z3, In (m, z1, z2, z3) real_limits ->
  forall k q, (S k < length (eo_y_vals sol))%nat -> (q < length y0)%nat ->
  let d := - (lam * (nth (S k) (eo_t_vals sol) 0 - nth k (eo_t_vals sol) 0)) in
  let size j := Rabs (ventry (nth j (eo_y_vals sol) []) q) in
  (0 <= d <= z1 -> size (S k) <= size k) /\ (z2 < d <= 12 \/ z3 < d -> size k <> 0 -> size k < size (S k)).
Proof. exact (fun HE HL HX St => @erk_intervals HE HL HX St). Qed.
Print Assumptions C96_erk_linear_intervals.
Example C96_example : (forall m, In m explicit_methods -> exists z1 z2 z3, In (m, z1, z2, z3) real_limits) /\
  forall m lam, In m explicit_methods -> exists fuel w' sol,
  @erk_odeint R RScalar exact_LA (exr_E false) _ fuel (exr_fun (fun t y => map (Rmult lam) y)) 0 1 [1; 2] (exr_opts false) output_options_default m (1 / 4) (World tt []) = (w', Ok sol).
Proof.
  split.
  - intros m Hm. unfold explicit_methods in Hm. cbn [In] in Hm. destruct Hm as [<-|[<-|[<-|[<-|[<-|[<-|[]]]]]]]; do 3 eexists; unfold real_limits; cbn [In]; eauto 10.
  - intros m lam Hm. apply exr_fixed; [exact Hm|]. intros t y Hy. rewrite map_length. exact Hy.
Qed.
