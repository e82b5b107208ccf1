(** Property theorems about the shipped test equations and functor::compute (C65-C67, C79, C80). *)
From Coq Require Import Reals Lra Lia.
From Verif Require Import Model.Base Model.Scalar Model.LinAlg Model.Options Model.Erk Model.Irk Model.Multistep Model.TestEquations.
From Verif Require Import Spec.Sums Spec.Observe Spec.Methods Spec.JacobianSpec Spec.TestEquationsSpec Spec.MultistepSpec.
From Verif Require Import Proofs.SumsProofs Proofs.ExactInstance Proofs.TestEquationsProofs Proofs.ThreeBody Proofs.TestEquationsRuns Proofs.ErkTotal Proofs.ErkExamples Proofs.MultistepTotal.
Local Open Scope R_scope.

(** ** C65: the Jacobians *)
Theorem C65_jacobians_are_derivatives :
  forall (LA : LinAlg R) (HP : ExactProducts LA) (St : Type),
  (forall l, @jac_is_derivative St 1 (fun _ => True) (exponential l)) /\
  (forall w, @jac_is_derivative St 2 (fun _ => True) (harmonic w)) /\
  (forall mu, mu <> 0 -> @jac_is_derivative St 2 (fun _ => True) (vdpol mu)) /\
  (forall a b, @jac_is_derivative St 2 (fun _ => True) (bruss a b)) /\
  @jac_is_derivative St 3 (fun _ => True) rober /\
  (forall rate, rate <> 0 -> @jac_is_derivative St 2 (fun _ => True) (dimer rate)) /\
  @jac_is_derivative St 2 (fun _ => True) stiff_eq /\
  (forall b2 b3 b4, @jac_is_derivative St 4 (fun _ => True) (kinetic_4 b2 b3 b4)) /\
  (forall s r b, @jac_is_derivative St 3 (fun _ => True) (lorenz s r b)).
Proof.
  exact (fun LA HP St => conj exponential_jac (conj harmonic_jac (conj vdpol_jac (conj bruss_jac (conj rober_jac
    (conj dimer_jac (conj (stiff_jac HP) (conj kinetic_jac lorenz_jac)))))))).
Qed.
Print Assumptions C65_jacobians_are_derivatives.
(** The matrix is not a constant: the Robertson problem at (1, 2, 3). *)
Example C65_example : exists J, f_jac (@rober R _ unit) 0 [1; 2; 3] tt = (tt, Ok J) /\ mentry J 1 1 = -120030000.
Proof. eexists. split; [reflexivity|]. unfold mentry. cbn. lra. Qed.

(** On no non-empty set of states is the Jacobian of three_body the derivative of its right-hand side. *)
Theorem C65_three_body_jacobian_refuted :
  forall (St : Type) m1 m2 m3, m1 <> 0 -> forall D, (exists y, length y = 12%nat /\ D y) -> forall s : St,
  ~ jac_is_derivative 12 D (@three_body R _ St m1 m2 m3).
Proof. exact (fun St => @tb_jac_wrong St). Qed.
Print Assumptions C65_three_body_jacobian_refuted.
Example C65_three_body_example : length [0; 0; 1; 0; 0; 2; 1; 0; 0; 1; 0; 0] = 12%nat /\ apart [0; 0; 1; 0; 0; 2; 1; 0; 0; 1; 0; 0].
Proof. split; [reflexivity|]. unfold apart, ventry. cbn. lra. Qed.

(** ** C66: the exact solutions *)
Theorem C66_exact_solutions :
  forall (LA : LinAlg R) (HP : ExactProducts LA) (St : Type),
  (forall l, @solves St 1 (exponential l) (exponential_sol l) /\ exponential_sol l 0 = [1]) /\
  (forall w, @solves St 2 (harmonic w) (harmonic_sol w) /\ harmonic_sol w 0 = [0; 1]) /\
  (@solves St 2 stiff_eq stiff_sol /\ stiff_sol 0 = [1; 0]).
Proof.
  exact (fun LA HP St => conj (fun l => conj (exponential_solves l) (exponential_start l))
    (conj (fun w => conj (harmonic_solves w) (harmonic_start w)) (conj (stiff_solves HP) stiff_start))).
Qed.
Print Assumptions C66_exact_solutions.
Example C66_example : ExactProducts exact_LA.
Proof. exact _. Qed.

(** ** C67: conservation laws *)
Theorem C67_conserved_by_the_equations :
  forall (St : Type),
  @conserves St 3 rober (fun _ => 1) /\
  (forall rate, rate <> 0 -> @conserves St 2 (dimer rate) (fun q => INR (q + 1))) /\
  (forall b2 b3 b4, @conserves St 4 (kinetic_4 b2 b3 b4) (fun q => INR (q + 1))) /\
  (forall w t y s v, length y = 2%nat -> f_fun (@harmonic R _ St w) t y s = (s, Ok v) -> Rsum 2 (fun q => ventry y q * ventry v q) = 0).
Proof. exact (fun St => conj rober_conserves (conj dimer_conserves (conj kinetic_conserves harmonic_energy))). Qed.
Print Assumptions C67_conserved_by_the_equations.
(** The single components do change. *)
Example C67_example : exists v, f_fun (@rober R _ unit) 0 [1; 0; 0] tt = (tt, Ok v) /\ ventry v 0 < 0.
Proof. eexists. split; [reflexivity|]. unfold ventry. cbn. lra. Qed.

(** Every value that an explicit run or an Adams-Bashforth run records has the total of the initial value. *)
Theorem C67_conserved_by_explicit_runs :
  forall (HE : Env R) (LA : LinAlg R) (HP : ExactProducts LA) (St : Type),
  let keeps n (F : functor R St) (wt : nat -> R) :=
    forall fuel t0 t1 y0 opts oo m dt w w' sol, length y0 = n -> erk_odeint fuel F t0 t1 y0 opts oo m dt w = (w', Ok sol) ->
    forall k, (k < length (eo_y_vals sol))%nat ->
    Rsum n (fun q => wt q * ventry (nth k (eo_y_vals sol) []) q) = Rsum n (fun q => wt q * ventry y0 q) in
  keeps 3%nat rober (fun _ => 1) /\
  (forall rate, rate <> 0 -> keeps 2%nat (dimer rate) (fun q => INR (q + 1))) /\
  (forall b2 b3 b4, keeps 4%nat (kinetic_4 b2 b3 b4) (fun q => INR (q + 1))).
Proof. exact (fun HE LA HP St => @erk_keeps_all St HE LA HP). Qed.
Print Assumptions C67_conserved_by_explicit_runs.
Theorem C67_conserved_by_adams_bashforth_runs :
  forall (HE : Env R) (LA : LinAlg R) (St : Type),
  let keeps n (F : functor R St) (wt : nat -> R) :=
    forall fuel t0 t1 y0 order dt w w' sol, length y0 = n -> (order <= 5)%Z -> adams_bashforth fuel F t0 t1 y0 order dt w = (w', Ok sol) ->
    forall k, (k < length (bo_y_vals sol))%nat ->
    Rsum n (fun q => wt q * ventry (nth k (bo_y_vals sol) []) q) = Rsum n (fun q => wt q * ventry y0 q) in
  keeps 3%nat rober (fun _ => 1) /\
  (forall rate, rate <> 0 -> keeps 2%nat (dimer rate) (fun q => INR (q + 1))) /\
  (forall b2 b3 b4, keeps 4%nat (kinetic_4 b2 b3 b4) (fun q => INR (q + 1))).
Proof. exact (fun HE LA St => @ab_keeps_all St HE LA). Qed.
Print Assumptions C67_conserved_by_adams_bashforth_runs.
Example C67_runs_example :
  (forall m, In m explicit_methods -> exists fuel w' sol,
   @erk_odeint R RScalar exact_LA (exr_E false) unit fuel rober 0 1 [1; 0; 0] (exr_opts false) output_options_default m (1 / 4) (World tt []) = (w', Ok sol)) /\
  exists fuel w' sol, @adams_bashforth R RScalar exact_LA (exr_E false) unit fuel rober 0 1 [1; 0; 0] 1 (1 / 4) (World tt []) = (w', Ok sol).
Proof.
  split.
  - intros m Hm. apply erk_fixed_halts; try assumption; try lra; [exact rober_returns_dim|discriminate|left; reflexivity].
  - apply ab_halts; [exact rober_returns_dim|lra|lra|lia|left; reflexivity].
Qed.

(** three_body: the momentum in x is conserved, the momentum in y is not. *)
Theorem C67_three_body_x_momentum : forall (St : Type) m1 m2 m3, @conserves St 12 (three_body m1 m2 m3) momentum_x.
Proof. exact (fun St => @tb_conserves_x St). Qed.
Print Assumptions C67_three_body_x_momentum.
Theorem C67_three_body_y_momentum_refuted :
  forall (St : Type) m1 m2 m3, m2 <> 0 -> m3 <> 0 -> forall s : St, ~ @conserves St 12 (three_body m1 m2 m3) momentum_y.
Proof. exact (fun St => @tb_not_conserves_y St). Qed.
Print Assumptions C67_three_body_y_momentum_refuted.
(** The rate at which it changes. *)
Theorem C67_three_body_y_momentum_rate :
  forall (St : Type) m1 m2 m3 t y (s s' : St) v, length y = 12%nat -> f_fun (three_body m1 m2 m3) t y s = (s', Ok v) ->
  let dx := ventry y 4 - ventry y 2 in let dy := ventry y 5 - ventry y 3 in
  ventry v 7 + ventry v 9 + ventry v 11 = m2 * m3 * (dx - dy) / (sqrt (dx * dx + dy * dy) * (dx * dx + dy * dy)).
Proof. exact (fun St => @tb_y_momentum St). Qed.
Print Assumptions C67_three_body_y_momentum_rate.
(** Unit masses, the second body at (1,0) and the third at (4,4): the rate is 3 - 4 over 5^3. *)
Example C67_three_body_example : forall s : unit, exists v,
  f_fun (three_body 1 1 1) 0 [0; 0; 1; 0; 4; 4; 0; 0; 0; 0; 0; 0] s = (s, Ok v) /\ ventry v 7 + ventry v 9 + ventry v 11 = - (1 / 125).
Proof.
  intro s. eexists. split; [reflexivity|].
  rewrite (tb_y_momentum 1 1 1 0 [0; 0; 1; 0; 4; 4; 0; 0; 0; 0; 0; 0] s s _ eq_refl eq_refl). unfold ventry. cbn [nth].
  replace ((4 - 1) * (4 - 1) + (4 - 0) * (4 - 0)) with (5 * 5) by ring. rewrite sqrt_square by lra. field.
Qed.

(** ** C79: energies of three_body *)
(** The force on each coordinate is minus the derivative of pot_energy, except on the second body's y, where it is off by a term
    that vanishes only on the diagonal. *)
Theorem C79_three_body_forces :
  forall (St : Type) m1 m2 m3 t y (s s' : St) v, length y = 12%nat -> apart y -> f_fun (three_body m1 m2 m3) t y s = (s', Ok v) ->
  exists V, (forall u, length u = 12%nat -> three_body_pot m1 m2 m3 u = Ok (V u)) /\
  (forall k, (k < 6)%nat -> k <> 3%nat -> derivable_pt_lim (fun u => V (list_set y k u)) (ventry y k) (- ventry v (6 + k))) /\
  let dx := ventry y 4 - ventry y 2 in let dy := ventry y 5 - ventry y 3 in
  derivable_pt_lim (fun u => V (list_set y 3 u)) (ventry y 3)
    (- (ventry v 9 - m2 * m3 * (dx - dy) / (sqrt (dx * dx + dy * dy) * (dx * dx + dy * dy)))).
Proof.
  exact (fun St m1 m2 m3 t y s s' v H A E => ex_intro _ (tb_pot m1 m2 m3) (conj (tb_pot_value m1 m2 m3)
    (conj (tb_forces m1 m2 m3 t y s s' v H A E) (tb_force_9 m1 m2 m3 t y s s' v H A E)))).
Qed.
Print Assumptions C79_three_body_forces.
(** kin_energy is half the sum of the squared momenta, whatever the masses. *)
Theorem C79_three_body_kinetic_energy :
  forall y, length y = 12%nat -> three_body_kin y = Ok (Rsum 6 (fun k => ventry y (6 + k) * ventry y (6 + k)) / 2).
Proof. exact tb_kin. Qed.
Print Assumptions C79_three_body_kinetic_energy.
Example C79_example : apart [0; 0; 1; 0; 4; 4; 1; 2; 0; 0; 0; 0] /\ three_body_kin [0; 0; 1; 0; 4; 4; 1; 2; 0; 0; 0; 0] = Ok (5 / 2).
Proof.
  split; [unfold apart, ventry; cbn; lra|]. rewrite tb_kin by reflexivity. f_equal. unfold ventry. cbn. field.
Qed.

(** ** C80: functor::compute *)
Theorem C80_compute_agrees :
  forall {T St} (F : functor T St) f Jf, (forall t y s, f_fun F t y s = (s, Ok (f t y))) -> (forall t y s, f_jac F t y s = (s, Ok (Jf t y))) ->
  forall t y J calc_J s, compute F t y J calc_J s = (s, Ok (f t y, if calc_J then Jf t y else J)).
Proof. exact (fun T St => @compute_spec T St). Qed.
Print Assumptions C80_compute_agrees.
(** It calls jac only on request, before fun, each at most once. *)
Theorem C80_compute_calls :
  forall {T St} (F : functor T St) t y J calc_J s l s' v,
  compute (logged F) t y J calc_J (s, l) = (s', Ok v) -> snd s' = l ++ (if calc_J then [CallJac t y; CallFun t y] else [CallFun t y]).
Proof. exact (fun T St => @compute_calls T St). Qed.
Print Assumptions C80_compute_calls.
Example C80_example : exists v J, compute (logged (@harmonic R _ unit 2)) 0 [1; 3] (mtab 0 0 (fun _ _ => 0)) true (tt, []) = ((tt, [CallJac 0 [1; 3]; CallFun 0 [1; 3]]), Ok (v, J)) /\
  v = [2 * 3; - (2) * 1] /\ mentry J 0 1 = 2.
Proof. eexists _, _. split; [reflexivity|]. split; reflexivity. Qed.
