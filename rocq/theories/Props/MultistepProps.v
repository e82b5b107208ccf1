(** Property theorems about the multistep solvers adams_bashforth and bdf (C59-C64, C73-C75).

    [adams_bashforth fuel F t0 t1 y0 order dt w = (w', Ok sol)]: the model of the call returned [sol]; [fuel] bounds the number of
    steps of the evaluation (of the main loop and of each run of the starting integrator), a run that needs more is an error
    value.  [fitted_step t0 t1 dt] is the step size used, over the reals min(dt, t1 - t0). *)
From Coq Require Import Reals Lra.
From Verif Require Import Model.Base Model.Scalar Model.LinAlg Model.Newton Model.Enums Model.Options Model.Irk Model.Multistep.
From Verif Require Import Spec.Sums Spec.Observe Spec.NewtonSpec Spec.RkSpec Spec.IrkSpec Spec.MultistepSpec.
From Verif Require Import Proofs.SumsProofs Proofs.ErkExamples Proofs.ExactInstance Proofs.MultistepProofs Proofs.MultistepOrders Proofs.MultistepResults Proofs.MultistepTotal Proofs.MultistepExamples Proofs.MultistepCopy.
From Verif Require Import Proofs.ChoiceInstance Proofs.ChoiceLU Proofs.IrkTotalExamples.
Local Open Scope R_scope.

(** C59.  The first k recorded values of Adams-Bashforth (k+1 of BDF) are all exactly y0, at the times t0, t0+h, ...: the values
    computed by the starting integrator are lost. *)
Theorem C59_ab_starting_values :
  forall (T : Type) (HS : Scalar T) (HL : LinAlg T) (HE : Env T) (St : Type) fuel (F : functor T St) t0 t1 y0 order dt w w' sol,
  adams_bashforth fuel F t0 t1 y0 order dt w = (w', Ok sol) ->
  let k := Z.to_nat order in
  (1 <= order)%Z /\ (k <= length (bo_y_vals sol))%nat /\ firstn k (bo_y_vals sol) = repeat y0 k /\
  firstn k (bo_t_vals sol) = grid k t0 (fitted_step t0 t1 dt).
Proof. exact (fun T HS HL HE St => @ab_starting T HS HL HE St). Qed.
Print Assumptions C59_ab_starting_values.
Theorem C59_bdf_starting_values :
  forall (T : Type) (HS : Scalar T) (HL : LinAlg T) (HE : Env T) (St : Type) fuel (F : functor T St) t0 t1 y0 order dt w w' sol,
  bdf fuel F t0 t1 y0 order dt w = (w', Ok sol) -> (1 <= order <= 6)%Z ->
  let k := S (Z.to_nat order) in
  (k <= length (bo_y_vals sol))%nat /\ firstn k (bo_y_vals sol) = repeat y0 k /\
  firstn k (bo_t_vals sol) = grid k t0 (fitted_step t0 t1 dt).
Proof. exact (fun T HS HL HE St => @bdf_starting T HS HL HE St). Qed.
Print Assumptions C59_bdf_starting_values.
Example C59_example : mg_summary (mg_ab false 3 mg_dt) = Some (SUCCESS, 7, 7)%nat /\ mg_summary (mg_bdf false 2 mg_dt) = Some (SUCCESS, 7, 7)%nat.
Proof. exact (conj (proj2 mg_ab_runs) (proj1 mg_bdf_runs)). Qed.

(** C60.  The Adams-Bashforth formula: every recorded value beyond the starting ones is the one before plus h times the order-k
    combination of the slopes at the k values before it, all taken at the same time. *)
Theorem C60_ab_formula :
  forall (LA : LinAlg R) (HE : Env R) (St : Type) (F : functor R St) f, computes F f ->
  forall fuel t0 t1 y0 order dt w w' sol, adams_bashforth fuel F t0 t1 y0 order dt w = (w', Ok sol) -> (order <= 5)%Z ->
  let h := Rmin dt (t1 - t0) in let k := Z.to_nat order in let ys := bo_y_vals sol in
  (forall i, (i < length ys)%nat -> length (yval ys i) = length y0) /\
  forall i, (k <= i < length ys)%nat -> ab_step_at_one_time (length y0) k f (nth (i - 1) (bo_t_vals sol) 0) h ys i.
Proof. exact (fun LA HE St => @ab_formula LA HE St). Qed.
Print Assumptions C60_ab_formula.
(** For f(t,y) = g(t) this is Euler's method, whatever the order. *)
Theorem C60_ab_is_euler_for_quadrature :
  forall (LA : LinAlg R) (HE : Env R) (St : Type) (F : functor R St) f, computes F f ->
  forall fuel t0 t1 y0 order dt w w' sol, adams_bashforth fuel F t0 t1 y0 order dt w = (w', Ok sol) -> (order <= 5)%Z ->
  let h := Rmin dt (t1 - t0) in let k := Z.to_nat order in let ys := bo_y_vals sol in
  forall g, (forall t y, length y = length y0 -> f t y = g t) ->
  forall i, (k <= i < length ys)%nat -> forall p, (p < length y0)%nat ->
  ventry (yval ys i) p = ventry (yval ys (i - 1)) p + h * ventry (g (nth (i - 1) (bo_t_vals sol) 0)) p.
Proof. exact (fun LA HE St => @ab_is_euler LA HE St). Qed.
Print Assumptions C60_ab_is_euler_for_quadrature.
Example C60_example f y0 : preserves_dim f (length y0) ->
  exists fuel w' sol, @adams_bashforth R RScalar exact_LA (exr_E false) _ fuel (exr_fun f) 0 1 y0 1 (2 / 3) (World tt []) = (w', Ok sol).
Proof. exact (mgr_euler f y0). Qed.

(** C61.  The order-k formulas reproduce exactly the polynomials of degree at most k, for every time and step, and not all of
    degree k+1. *)
Theorem C61_ab_orders : forall k, (1 <= k <= 5)%nat -> ab_exact k k /\ ~ ab_exact k (S k).
Proof. exact ab_orders. Qed.
Print Assumptions C61_ab_orders.
Theorem C61_bdf_orders : forall k, (1 <= k <= 6)%nat -> bdf_exact k k /\ ~ bdf_exact k (S k).
Proof. exact bdf_orders. Qed.
Print Assumptions C61_bdf_orders.
Example C61_example : (1 <= 5 <= 5)%nat /\ (1 <= 6 <= 6)%nat.
Proof. lia. Qed.

(** C62.  Times: t0 + i*h without clipping; the last one is the first at or beyond t1, or the last starting time. *)
Theorem C62_ab_times :
  forall (LA : LinAlg R) (HE : Env R) (St : Type) fuel (F : functor R St) t0 t1 y0 order dt w w' sol,
  let h := Rmin dt (t1 - t0) in
  adams_bashforth fuel F t0 t1 y0 order dt w = (w', Ok sol) ->
  let N := length (bo_t_vals sol) in let tv i := nth i (bo_t_vals sol) 0 in
  length (bo_y_vals sol) = N /\ (forall i, (i < N)%nat -> tv i = t0 + INR i * h) /\
  (Z.to_nat order <= N)%nat /\ t1 <= tv (N - 1)%nat /\ (N = Z.to_nat order \/ tv (N - 1)%nat < t1 + h).
Proof. exact (fun LA HE St => @ab_times LA HE St). Qed.
Print Assumptions C62_ab_times.
Theorem C62_bdf_times :
  forall (LA : LinAlg R) (HE : Env R) (St : Type) fuel (F : functor R St) t0 t1 y0 order dt w w' sol,
  let h := Rmin dt (t1 - t0) in
  bdf fuel F t0 t1 y0 order dt w = (w', Ok sol) -> (1 <= order <= 6)%Z ->
  let N := length (bo_t_vals sol) in let tv i := nth i (bo_t_vals sol) 0 in
  length (bo_y_vals sol) = N /\ (forall i, (i < N)%nat -> tv i = t0 + INR i * h) /\
  (Z.to_nat order < N)%nat /\ (N = S (Z.to_nat order) \/ tv (N - 1)%nat < t1 + h) /\
  (bo_status sol = SUCCESS /\ t1 <= tv (N - 1)%nat \/ bo_status sol = INTERNAL_SOLVE_FAILURE /\ tv (N - 1)%nat < t1).
Proof. exact (fun LA HE St => @bdf_times LA HE St). Qed.
Print Assumptions C62_bdf_times.
(** In every arithmetic the times are obtained by adding h again and again. *)
Theorem C62_ab_grid_every_arithmetic :
  forall (T : Type) (HS : Scalar T) (HL : LinAlg T) (HE : Env T) (St : Type) fuel (F : functor T St) t0 t1 y0 order dt w w' sol,
  adams_bashforth fuel F t0 t1 y0 order dt w = (w', Ok sol) ->
  let h := fitted_step t0 t1 dt in let N := length (bo_y_vals sol) in
  bo_status sol = SUCCESS /\ bo_t_vals sol = grid N t0 h /\ (gtime t0 h (N - 1) <?. t1)%sc = false /\
  forall i, (Z.to_nat order <= i < N)%nat -> (gtime t0 h (i - 1) <?. t1)%sc = true.
Proof. exact (fun T HS HL HE St => @ab_grid T HS HL HE St). Qed.
Print Assumptions C62_ab_grid_every_arithmetic.
(** the last time is beyond t1: 4/3 for the interval [0,1] and dt = 2/3 *)
Example C62_example f y0 : preserves_dim f (length y0) ->
  exists fuel w' sol, @adams_bashforth R RScalar exact_LA (exr_E false) _ fuel (exr_fun f) 0 1 y0 1 (2 / 3) (World tt []) = (w', Ok sol) /\
    bo_t_vals sol = [0; 2 / 3; 4 / 3].
Proof. exact (mgr_overshoot f y0). Qed.

(** C63.  Orders outside the supported range. *)
Theorem C63_bdf_order_validation :
  forall (T : Type) (HS : Scalar T) (HL : LinAlg T) (HE : Env T) (St : Type) fuel (F : functor T St) t0 t1 y0 order dt w,
  (order <= 0 \/ 6 < order)%Z -> bdf fuel F t0 t1 y0 order dt w = (w, Ok (BasicOutput GENERAL_ERROR [] [])).
Proof. exact (fun T HS HL HE St => @bdf_invalid T HS HL HE St). Qed.
Print Assumptions C63_bdf_order_validation.
Theorem C63_ab_order_not_validated :
  forall (T : Type) (HS : Scalar T) (HL : LinAlg T) (HE : Env T) (St : Type) fuel (F : functor T St) t0 t1 y0 order dt w,
  (ndebug = true \/ (fitted_step t0 t1 dt >?. sZ 0)%sc = true) ->
  ((order < 0)%Z -> adams_bashforth fuel F t0 t1 y0 order dt w = (w, Err (EThrow ELogic))) /\
  adams_bashforth fuel F t0 t1 y0 0 dt w = (w, Err EUB) /\
  forall w' sol, (5 < order)%Z -> adams_bashforth fuel F t0 t1 y0 order dt w = (w', Ok sol) ->
    bo_y_vals sol = repeat y0 (length (bo_y_vals sol)) /\ (ndebug = false -> length (bo_y_vals sol) = Z.to_nat order).
Proof. exact (fun T HS HL HE St => @ab_orders_outside T HS HL HE St). Qed.
Print Assumptions C63_ab_order_not_validated.
(** When Newton's method fails, bdf stops with INTERNAL_SOLVE_FAILURE and the steps completed so far; otherwise it reaches t1. *)
Theorem C63_bdf_newton_failure :
  forall (T : Type) (HS : Scalar T) (HL : LinAlg T) (HE : Env T) (St : Type) fuel (F : functor T St) t0 t1 y0 order dt w w' sol,
  bdf fuel F t0 t1 y0 order dt w = (w', Ok sol) -> (1 <= order <= 6)%Z ->
  let h := fitted_step t0 t1 dt in let N := length (bo_y_vals sol) in
  bo_t_vals sol = grid N t0 h /\
  (forall i, (S (Z.to_nat order) <= i < N)%nat -> (gtime t0 h (i - 1) <?. t1)%sc = true) /\
  (bo_status sol = SUCCESS /\ (gtime t0 h (N - 1) <?. t1)%sc = false \/
   bo_status sol = INTERNAL_SOLVE_FAILURE /\ (gtime t0 h (N - 1) <?. t1)%sc = true).
Proof. exact (fun T HS HL HE St => @bdf_grid T HS HL HE St). Qed.
Print Assumptions C63_bdf_newton_failure.
(** Compiled with NDEBUG neither solver returns (Adams-Bashforth: from order 2 on): the starting integrator throws. *)
Theorem C63_ndebug_never_returns :
  forall (T : Type) (HS : Scalar T) (HL : LinAlg T) (HE : Env T) (St : Type) fuel (F : functor T St) t0 t1 y0 order dt w w' sol,
  ndebug = true -> (t0 <?. t0 +. fitted_step t0 t1 dt)%sc = true ->
  ((2 <= order)%Z -> adams_bashforth fuel F t0 t1 y0 order dt w <> (w', Ok sol)) /\
  ((1 <= order <= 6)%Z -> bdf fuel F t0 t1 y0 order dt w <> (w', Ok sol)).
Proof. exact (fun T HS HL HE St => @multistep_ndebug T HS HL HE St). Qed.
Print Assumptions C63_ndebug_never_returns.
Example C63_example :
  snd (mg_ab false (-2) mg_dt) = Err (EThrow ELogic) /\ snd (mg_ab false 0 mg_dt) = Err EUB /\
  snd (mg_ab false 6 mg_dt1) = Err EAbort /\ snd (mg_ab true 2 mg_dt) = Err (EThrow ELogic) /\ snd (mg_bdf true 1 mg_dt) = Err (EThrow ELogic) /\
  mg_summary (mg_ab false 7 mg_dt) = Some (SUCCESS, 7, 7)%nat /\ mg_summary mg_fail = Some (INTERNAL_SOLVE_FAILURE, 2, 2)%nat.
Proof. exact mg_c63. Qed.

(** C64.  Every BDF value beyond the starting ones is the end of a Newton iteration for the order-k BDF equation with the k values
    before it, stopped by the first increment below 1e-10 in the maximum norm, before the 500th; INTERNAL_SOLVE_FAILURE means 500
    iterations without such an increment (but for the last). *)
Theorem C64_bdf_newton :
  forall (LA : LinAlg R) (HP : ExactProducts LA) (HX : ExactSolve LA) (HE : Env R) (St : Type) (F : functor R St) f, computes F f -> jac_matrices F ->
  forall fuel t0 t1 y0 order dt w w' sol, bdf fuel F t0 t1 y0 order dt w = (w', Ok sol) -> (1 <= order <= 6)%Z ->
  let h := Rmin dt (t1 - t0) in let k := Z.to_nat order in let n := length y0 in let ys := bo_y_vals sol in
  (forall t y J, jac_answers F t y J -> nrows J = n -> ncols J = n -> invertible (bdf_matrix n (h * bdf_beta k) J)) ->
  (forall i, (i < length ys)%nat -> length (yval ys i) = n) /\
  (forall i, (k < i < length ys)%nat -> exists xs es, bdf_iteration F n k f t0 h ys i xs es /\ (1 <= length es < 500)%nat /\ yval ys i = last xs [] /\
    (forall l, (S l < length es)%nat -> ~ la_norminf (nth l es []) < 1 / 10000000000) /\ la_norminf (last es []) < 1 / 10000000000) /\
  (bo_status sol = INTERNAL_SOLVE_FAILURE ->
   exists xs es, bdf_iteration F n k f t0 h ys (length ys) xs es /\ length es = 500%nat /\ forall l, (S l < length es)%nat -> ~ la_norminf (nth l es []) < 1 / 10000000000).
Proof. exact (fun LA HP HX HE St => @bdf_newton_both LA HP HX HE St). Qed.
Print Assumptions C64_bdf_newton.
(** For right-hand sides that are affine in y, with their Jacobian, the BDF equation is satisfied exactly, and the run succeeds. *)
Theorem C64_bdf_exact_for_affine :
  forall (LA : LinAlg R) (HP : ExactProducts LA) (HX : ExactSolve LA) (HN : ExactNorm LA) (HE : Env R) (St : Type) (F : functor R St) f, computes F f -> jac_matrices F ->
  forall fuel t0 t1 y0 order dt w w' sol, bdf fuel F t0 t1 y0 order dt w = (w', Ok sol) -> (1 <= order <= 6)%Z ->
  let h := Rmin dt (t1 - t0) in let k := Z.to_nat order in let n := length y0 in let ys := bo_y_vals sol in
  (forall t y J, jac_answers F t y J -> nrows J = n -> ncols J = n -> invertible (bdf_matrix n (h * bdf_beta k) J)) ->
  forall A g, (forall t y p, length y = n -> (p < n)%nat -> ventry (f t y) p = Rsum n (fun q => A t p q * ventry y q) + g t p) ->
  (forall t y J, jac_answers F t y J -> forall p q, (p < n)%nat -> (q < n)%nat -> mentry J p q = A t p q) ->
  bo_status sol = SUCCESS /\
  forall i, (k < i < length ys)%nat -> forall p, (p < n)%nat -> bdf_residual k f (t0 + INR i * h) h ys i (yval ys i) p = 0.
Proof. exact (fun LA HP HX HN HE St => @bdf_affine_both LA HP HX HN HE St). Qed.
Print Assumptions C64_bdf_exact_for_affine.
(** y' = (cos t, - cos t) over twenty steps: *)
Example C64_example : exists h, 0 < h /\ forall order, (1 <= order <= 6)%Z -> exists fuel w' sol,
  @bdf R RScalar choice_LA it_E unit fuel (it_F cos) 0 (20 * h) [1; 2] order h (World tt []) = (w', Ok sol) /\ bo_status sol = SUCCESS /\
  (forall t y J c, jac_answers (it_F cos) t y J -> invertible (bdf_matrix 2 c J)).
Proof.
  destruct (it_multistep cos it_cos [1; 2] eq_refl) as (h & Hh & _ & Hb). exists h. split; [exact Hh|]. intros order Ho. destruct (Hb order Ho) as (fuel & w' & sol & E). exists fuel, w', sol.
  split; [exact E|]. split; [|intros t y J c HJ; exact (it_bdf_matrix cos c t y J HJ)].
  exact (proj1 (C64_bdf_exact_for_affine choice_LA _ _ _ it_E unit (it_F cos) (it_f cos) (it_computes cos) (it_matrices cos) _ _ _ _ _ _ _ _ _ E Ho (fun t y J HJ _ _ => it_bdf_matrix cos _ t y J HJ) (fun _ _ _ => 0)
    (fun t p => if (p =? 0)%nat then cos t else - cos t)
    ltac:(intros t y p Ly Hp; destruct p as [|[|p]]; [| |cbn in Hp; lia]; unfold it_f, ventry; cbn; ring) (fun t y J HJ p q Hp Hq => it_zero cos t y J p q HJ Hp Hq))).
Qed.

(** C73.  Linear invariants of the right-hand side (of f, and for BDF also of its Jacobian) are invariants of the recorded values. *)
Theorem C73_ab_linear_invariants :
  forall (LA : LinAlg R) (HE : Env R) (St : Type) (F : functor R St) f, computes F f ->
  forall fuel t0 t1 y0 order dt w w' sol, adams_bashforth fuel F t0 t1 y0 order dt w = (w', Ok sol) -> (order <= 5)%Z ->
  let n := length y0 in let ys := bo_y_vals sol in
  forall wt, (forall t y, length y = n -> Rsum n (fun q => wt q * ventry (f t y) q) = 0) ->
  forall i, (i < length ys)%nat -> Rsum n (fun q => wt q * ventry (yval ys i) q) = Rsum n (fun q => wt q * ventry y0 q).
Proof. exact (fun LA HE St => @ab_invariant LA HE St). Qed.
Print Assumptions C73_ab_linear_invariants.
Theorem C73_bdf_linear_invariants :
  forall (LA : LinAlg R) (HP : ExactProducts LA) (HX : ExactSolve LA) (HE : Env R) (St : Type) (F : functor R St) f, computes F f -> jac_matrices F ->
  forall fuel t0 t1 y0 order dt w w' sol, bdf fuel F t0 t1 y0 order dt w = (w', Ok sol) -> (1 <= order <= 6)%Z ->
  let h := Rmin dt (t1 - t0) in let k := Z.to_nat order in let n := length y0 in let ys := bo_y_vals sol in
  (forall t y J, jac_answers F t y J -> nrows J = n -> ncols J = n -> invertible (bdf_matrix n (h * bdf_beta k) J)) ->
  forall wt, (forall t y, length y = n -> Rsum n (fun p => wt p * ventry (f t y) p) = 0) ->
  (forall t y J, jac_answers F t y J -> nrows J = n -> ncols J = n -> forall q, (q < n)%nat -> Rsum n (fun p => wt p * mentry J p q) = 0) ->
  forall i, (i < length ys)%nat -> Rsum n (fun p => wt p * ventry (yval ys i) p) = Rsum n (fun p => wt p * ventry y0 p).
Proof. exact (fun LA HP HX HE St => @bdf_invariant LA HP HX HE St). Qed.
Print Assumptions C73_bdf_linear_invariants.
Example C73_example : exists h, 0 < h /\
  (forall order, (1 <= order <= 5)%Z -> exists fuel w' sol, @adams_bashforth R RScalar choice_LA it_E unit fuel (it_F cos) 0 (20 * h) [1; 2] order h (World tt []) = (w', Ok sol) /\
     forall i, (i < length (bo_y_vals sol))%nat -> ventry (yval (bo_y_vals sol) i) 0 + ventry (yval (bo_y_vals sol) i) 1 = 3) /\
  (forall order, (1 <= order <= 6)%Z -> exists fuel w' sol, @bdf R RScalar choice_LA it_E unit fuel (it_F cos) 0 (20 * h) [1; 2] order h (World tt []) = (w', Ok sol) /\
     forall i, (i < length (bo_y_vals sol))%nat -> ventry (yval (bo_y_vals sol) i) 0 + ventry (yval (bo_y_vals sol) i) 1 = 3).
Proof.
  destruct (it_multistep cos it_cos [1; 2] eq_refl) as (h & Hh & Ha & Hb). exists h. split; [exact Hh|]. split; intros order Ho.
  - destruct (Ha order Ho) as (fuel & w' & sol & E). exists fuel, w', sol. split; [exact E|]. intros i Hi.
    pose proof (C73_ab_linear_invariants choice_LA it_E unit (it_F cos) (it_f cos) (it_computes cos) _ _ _ _ _ _ _ _ _ E ltac:(lia) (fun _ => 1) ltac:(intros t y Ly; unfold it_f, ventry; cbn; ring) i Hi) as K1.
    cbn [length Rsum] in K1. unfold ventry at 3 4 in K1. cbn [nth] in K1. lra.
  - destruct (Hb order Ho) as (fuel & w' & sol & E). exists fuel, w', sol. split; [exact E|]. intros i Hi.
    pose proof (C73_bdf_linear_invariants choice_LA _ _ it_E unit (it_F cos) (it_f cos) (it_computes cos) (it_matrices cos) _ _ _ _ _ _ _ _ _ E Ho (fun t y J HJ _ _ => it_bdf_matrix cos _ t y J HJ) (fun _ => 1)
      ltac:(intros t y Ly; unfold it_f, ventry; cbn; ring)
      ltac:(intros t y J HJ _ _ q Hq; rewrite (Rsum_ext _ _ (fun _ => 0)) by (intros p Hp; rewrite (it_zero cos _ _ _ p q HJ Hp Hq); ring); cbn; ring) i Hi) as K1.
    cbn [length Rsum] in K1. unfold ventry at 3 4 in K1. cbn [nth] in K1. lra.
Qed.

(** C74.  From an equilibrium nothing moves. *)
Theorem C74_ab_equilibrium :
  forall (LA : LinAlg R) (HE : Env R) (St : Type) (F : functor R St) f, computes F f ->
  forall fuel t0 t1 y0 order dt w w' sol, adams_bashforth fuel F t0 t1 y0 order dt w = (w', Ok sol) -> (order <= 5)%Z ->
  let ys := bo_y_vals sol in
  (forall t p, (p < length y0)%nat -> ventry (f t y0) p = 0) -> ys = repeat y0 (length ys).
Proof. exact (fun LA HE St => @ab_equilibrium LA HE St). Qed.
Print Assumptions C74_ab_equilibrium.
Theorem C74_bdf_equilibrium :
  forall (LA : LinAlg R) (HP : ExactProducts LA) (HX : ExactSolve LA) (HE : Env R) (St : Type) (F : functor R St) f, computes F f -> jac_matrices F ->
  forall fuel t0 t1 y0 order dt w w' sol, bdf fuel F t0 t1 y0 order dt w = (w', Ok sol) -> (1 <= order <= 6)%Z ->
  let h := Rmin dt (t1 - t0) in let k := Z.to_nat order in let n := length y0 in let ys := bo_y_vals sol in
  (forall t y J, jac_answers F t y J -> nrows J = n -> ncols J = n -> invertible (bdf_matrix n (h * bdf_beta k) J)) ->
  (forall t, f t y0 = vtab n (fun _ => 0)) -> forall i, (i < length ys)%nat -> yval ys i = y0.
Proof. exact (fun LA HP HX HE St => @bdf_equilibrium LA HP HX HE St). Qed.
Print Assumptions C74_bdf_equilibrium.
Example C74_example : exists h, 0 < h /\
  (forall order, (1 <= order <= 5)%Z -> exists fuel w' sol, @adams_bashforth R RScalar choice_LA it_E unit fuel (it_F (fun _ => 0)) 0 (20 * h) [1; 2] order h (World tt []) = (w', Ok sol) /\ bo_y_vals sol = repeat [1; 2] (length (bo_y_vals sol))) /\
  (forall order, (1 <= order <= 6)%Z -> exists fuel w' sol, @bdf R RScalar choice_LA it_E unit fuel (it_F (fun _ => 0)) 0 (20 * h) [1; 2] order h (World tt []) = (w', Ok sol) /\ forall i, (i < length (bo_y_vals sol))%nat -> yval (bo_y_vals sol) i = [1; 2]).
Proof.
  destruct (it_multistep (fun _ => 0) ltac:(intros; cbv beta; rewrite Rabs_R0; lra) [1; 2] eq_refl) as (h & Hh & Ha & Hb). exists h. split; [exact Hh|]. split; intros order Ho.
  - destruct (Ha order Ho) as (fuel & w' & sol & E). exists fuel, w', sol. split; [exact E|].
    apply (C74_ab_equilibrium choice_LA it_E unit _ (it_f (fun _ => 0)) (it_computes _) _ _ _ _ _ _ _ _ _ E ltac:(lia)). intros t p Hp. destruct p as [|[|p]]; [| |cbn in Hp; lia]; unfold it_f, ventry; cbn; ring.
  - destruct (Hb order Ho) as (fuel & w' & sol & E). exists fuel, w', sol. split; [exact E|].
    apply (C74_bdf_equilibrium choice_LA _ _ it_E unit _ (it_f (fun _ => 0)) (it_computes _) (it_matrices _) _ _ _ _ _ _ _ _ _ E Ho (fun t y J HJ _ _ => it_bdf_matrix _ _ t y J HJ)). intros t. unfold it_f, vtab. cbn. f_equal. f_equal. ring.
Qed.

(** C75.  Over the reals both solvers return whenever the starting integrator does. *)
Theorem C75_ab_returns :
  forall (LA : LinAlg R) (HE : Env R) (St : Type) (F : functor R St) t0 t1 dt y0, returns_dim F (length y0) -> t0 < t1 -> 0 < dt ->
  let h := Rmin dt (t1 - t0) in
  forall order w, (1 <= order <= 5)%Z -> (order = 1%Z \/ starter_returns F h y0) ->
  exists fuel w' sol, adams_bashforth fuel F t0 t1 y0 order dt w = (w', Ok sol).
Proof. exact (fun LA HE St => @ab_halts LA HE St). Qed.
Print Assumptions C75_ab_returns.
Theorem C75_bdf_returns :
  forall (LA : LinAlg R) (HE : Env R) (St : Type) (F : functor R St) t0 t1 dt y0, returns_dim F (length y0) -> t0 < t1 -> 0 < dt ->
  let h := Rmin dt (t1 - t0) in
  forall order w, (1 <= order <= 6)%Z -> starter_returns F h y0 ->
  (forall t y s, length y = length y0 -> exists s' J, f_jac F t y s = (s', Ok J) /\ nrows J = length y0 /\ ncols J = length y0) ->
  exists fuel w' sol, bdf fuel F t0 t1 y0 order dt w = (w', Ok sol).
Proof. exact (fun LA HE St => @bdf_halts LA HE St). Qed.
Print Assumptions C75_bdf_returns.
Example C75_example : exists h, 0 < h /\ @starter_returns R RScalar choice_LA it_E unit (it_F cos) h [1; 2] /\ returns_dim (it_F cos) 2.
Proof. destruct (it_starter cos it_cos) as (h & Hh & Hs). exists h. split; [exact Hh|]. split; [apply Hs; [lra|reflexivity]|apply it_dim]. Qed.

(** C88.  bdf solves its equations with a copy of the caller's functor: what it does to the functor's own state, and to the
    output stream, is what starting up does, no matter how far it integrates. *)
Theorem C88_bdf_leaves_functor :
  forall (T : Type) (HS : Scalar T) (HL : LinAlg T) (HE : Env T) (St : Type) fuel (F : functor T St) t0 t1 t1' y0 order dt w,
  (t0 +. dt >?. t1)%sc = false -> (t0 +. dt >?. t1')%sc = false ->
  fst (bdf fuel F t0 t1 y0 order dt w) = fst (bdf fuel F t0 t1' y0 order dt w).
Proof.
  intros T HS HL HE St fuel F t0 t1 t1' y0 order dt w H1 H2. apply bdf_copy. unfold fitted_step. rewrite H1, H2. reflexivity.
Qed.
Print Assumptions C88_bdf_leaves_functor.
Example C88_example : mc_over (mc_end 1) = false /\ mc_over (mc_end 2) = false /\
  snd (mc_summary (mc_bdf (mc_end 1))) = Some 7%nat /\ snd (mc_summary (mc_bdf (mc_end 2))) = Some 11%nat.
Proof. exact mc_runs. Qed.
