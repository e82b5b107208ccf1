(** Property theorems: the sign of exponentially decaying components in explicit and first-order multistep runs (C141). *)
From Coq Require Import Reals Lra.
From Verif Require Import Model.Base Model.Scalar Model.LinAlg Model.Enums Model.Options Model.Erk Model.Irk Model.Multistep.
From Verif Require Import Spec.Sums Spec.Observe Spec.NewtonSpec Spec.ErkSpec Spec.Methods Spec.MultistepSpec Spec.BdfLinearSpec Spec.SignSpec.
From Verif Require Import Proofs.ErkExamples Proofs.BdfLinearExamples Proofs.AbCovarianceExamples Proofs.SignErk Proofs.SignExamples Proofs.SignMultistep.
Local Open Scope R_scope.

(** C141.  Let y_p' = - lam y_p inside any problem, so that y_p keeps its sign along the solution.  Every recorded step of an explicit
    run multiplies y_p by exactly the factor of the method at lam h for the size h of the step ... *)
Theorem C141_decay_of_explicit_steps :
  forall (HE : Env R) (HL : LinAlg R) (HX : ExactProducts HL) (St : Type) (F : functor R St) f fuel t0 t1 y0 opts oo m dt w w' sol p lam g,
  computes F f -> decaying_component (length y0) p lam f -> In (m, g) decay_factors ->
  erk_odeint fuel F t0 t1 y0 opts oo m dt w = (w', Ok sol) ->
  forall k, (S k < length (eo_y_vals sol))%nat ->
  ventry (nth (S k) (eo_y_vals sol) []) p = g (lam * (nth (S k) (eo_t_vals sol) 0 - nth k (eo_t_vals sol) 0)) * ventry (nth k (eo_y_vals sol) []) p.
Proof. exact (fun HE HL HX St => @erk_decay HE HL HX St). Qed.
Print Assumptions C141_decay_of_explicit_steps.
(** a decaying (or growing) component that drives another one, with every explicit method *)
Example C141_example : (forall m, In m explicit_methods <-> exists g, In (m, g) decay_factors) /\
  forall lam m, In m explicit_methods -> computes (exr_fun (sg_f lam)) (sg_f lam) /\ decaying_component 2 0 lam (sg_f lam) /\
  exists fuel w sol, sg_run lam m fuel = (w, Ok sol) /\ length (eo_y_vals sol) = 5%nat /\
    forall k, (S k < length (eo_y_vals sol))%nat -> lam * (nth (S k) (eo_t_vals sol) 0 - nth k (eo_t_vals sol) 0) = lam / 4.
Proof.
  split; [|exact sg_runs]. intros m. split.
  - intros H. unfold explicit_methods in H. cbn [In] in H. unfold decay_factors. cbn [In]. destruct H as [<-|[<-|[<-|[<-|[<-|[<-|[]]]]]]]; eexists; eauto 10.
  - intros (g & H). unfold decay_factors in H. cbn [In] in H. destruct H as [H|[H|[H|[H|[H|[H|[]]]]]]]; apply (f_equal fst) in H; cbn [fst] in H; subst m; cbn; tauto.
Qed.

(** ... so that a run whose steps are in the ranges of [keeps_sign] never changes the sign of y_p, with steps of any size for
    RUNGE_KUTTA_4, CASH_KARP_54 and DORMAND_PRINCE_54 and up to the limit of the table for the other three, and a step in the ranges of
    [changes_sign] always does: a positive quantity becomes negative although the solution stays positive. *)
Theorem C141_sign_of_decaying_components :
  forall (HE : Env R) (HL : LinAlg R) (HX : ExactProducts HL) (St : Type) (F : functor R St) f fuel t0 t1 y0 opts oo m dt w w' sol p lam,
  computes F f -> decaying_component (length y0) p lam f -> erk_odeint fuel F t0 t1 y0 opts oo m dt w = (w', Ok sol) ->
  let y k := ventry (nth k (eo_y_vals sol) []) p in let d k := lam * (nth (S k) (eo_t_vals sol) 0 - nth k (eo_t_vals sol) 0) in
  ((forall k, (S k < length (eo_y_vals sol))%nat -> keeps_sign m (d k)) -> forall k, (k < length (eo_y_vals sol))%nat ->
     (0 < ventry y0 p -> 0 < y k) /\ (ventry y0 p < 0 -> y k < 0)) /\
  (forall k, (S k < length (eo_y_vals sol))%nat -> changes_sign m (d k) -> (0 < y k -> y (S k) < 0) /\ (y k < 0 -> 0 < y (S k))).
Proof. exact (fun HE HL HX St => @erk_sign HE HL HX St). Qed.
Print Assumptions C141_sign_of_decaying_components.
(** The steps of the runs above with lam = 2 keep the sign with every method; with lam = 12 they change it with three of them, after
    which the state is negative at the first recorded time. *)
Example C141_example_sign : (forall m, In m explicit_methods -> keeps_sign m (2 / 4)) /\
  (forall m, In m [EXPLICIT_EULER; BOGACKI_SHAMPINE_32; FEHLBERG_54] -> changes_sign m (12 / 4) /\
   exists fuel w sol, sg_run 12 m fuel = (w, Ok sol) /\ ventry (nth 0 (eo_y_vals sol) []) 0 = 3 /\ ventry (nth 1 (eo_y_vals sol) []) 0 < 0).
Proof. exact sg_signs. Qed.

(** The first-order multistep methods: adams_bashforth multiplies y_p by 1 - lam h with every step, as EXPLICIT_EULER does, and bdf
    divides it by 1 + lam h (after the copy of y0 that C59 describes), so that bdf never changes the sign of a decaying component. *)
Theorem C141_decay_of_first_order_multistep_runs :
  (forall (LA : LinAlg R) (HE : Env R) (St : Type) (F : functor R St) f fuel t0 t1 y0 dt w w' sol p lam,
   computes F f -> decaying_component (length y0) p lam f -> t0 < t1 -> adams_bashforth fuel F t0 t1 y0 1 dt w = (w', Ok sol) ->
   forall i, (S i < length (bo_y_vals sol))%nat ->
   ventry (nth (S i) (bo_y_vals sol) []) p = (1 - lam * Rmin dt (t1 - t0)) * ventry (nth i (bo_y_vals sol) []) p) /\
  (forall (LA : LinAlg R) (HP : ExactProducts LA) (HX : ExactSolve LA) (HN : ExactNorm LA) (HE : Env R) (St : Type) (F : functor R St) A g fuel t0 t1 y0 dt w w' sol p lam,
   affine_problem F (length y0) A g -> decaying_component (length y0) p lam (affine_rhs (length y0) A g) -> bdf_solvable (length y0) (Rmin dt (t1 - t0)) A ->
   t0 < t1 -> bdf fuel F t0 t1 y0 1 dt w = (w', Ok sol) ->
   forall i, (1 <= i)%nat -> (S i < length (bo_y_vals sol))%nat ->
   ventry (nth i (bo_y_vals sol) []) p = (1 + lam * Rmin dt (t1 - t0)) * ventry (nth (S i) (bo_y_vals sol) []) p).
Proof. exact (conj ab_decay bdf_decay). Qed.
Print Assumptions C141_decay_of_first_order_multistep_runs.
Example C141_example_multistep :
  (computes (exr_fun (sg_f 12)) (sg_f 12) /\ decaying_component 2 0 12 (sg_f 12) /\ exists fuel w sol, al_run (sg_f 12) fuel 0 100 (1 / 4) [3; 1] = (w, Ok sol)) /\
  affine_problem (la_F 2 sg_A (fun _ _ => 0)) 2 sg_A (fun _ _ => 0) /\ decaying_component 2 0 1000 (affine_rhs 2 sg_A (fun _ _ => 0)) /\ (forall c, 0 <= c -> bdf_solvable 2 c sg_A) /\
  exists h, 0 < h /\ forall dt, 0 < dt <= h -> exists fuel w sol, la_bdf 2 sg_A (fun _ _ => 0) fuel 0 100 dt [3; 4] 1 = (w, Ok sol).
Proof. exact (conj sg_ab_runs sg_bdf_runs). Qed.
