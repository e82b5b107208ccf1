(** Property theorems about what runs of the multistep solvers and of the root finders can depend on (C130, C131). *)
From Coq Require Import Reals Lra.
From Verif Require Import Model.Base Model.Scalar Model.LinAlg Model.Newton Model.Enums Model.Options Model.Irk Model.Multistep.
From Verif Require Import Spec.Sums Spec.Observe Spec.ErkSpec Spec.NewtonSpec Spec.LocalitySpec Spec.MsLocalitySpec.
From Verif Require Import Proofs.ErkExamples Proofs.NewtonExamples Proofs.ChoiceInstance Proofs.IrkTotalExamples Proofs.MultistepConvExamples Proofs.MsWindow Proofs.NewtonLocality Proofs.MsWindowExamples.

(** C131.  In every arithmetic: a run of the root finders that returned is repeated exactly - same point, same status, same final
    state - with every system that answers the calls it made in the same way ... *)
Theorem C131_newton_depends_on_its_calls :
  forall (T : Type) (HS : Scalar T) (HL : LinAlg T) (HE : Env T) (St : Type) (F : nfunctor T St) x opts stats quiet s l s' l' r,
  newton_iterate (nlogged F) x opts stats quiet (s, l) = ((s', l'), Ok r) ->
  exists calls, l' = l ++ calls /\ forall G, Forall (nagree_at F G) calls -> newton_iterate G x opts stats quiet s = (s', Ok r).
Proof. exact (fun T HS HL HE St F x opts stats quiet => nlocal_all F _ (fun G => newton_iterate G x opts stats quiet) (fun G => nl_newton F G x opts stats quiet)). Qed.
Print Assumptions C131_newton_depends_on_its_calls.
Theorem C131_broyden_depends_on_its_calls :
  forall (T : Type) (HS : Scalar T) (HL : LinAlg T) (St : Type) (F : nfunctor T St) x opts stats quiet s l s' l' r,
  broyden_iterate (nlogged F) x opts stats quiet (s, l) = ((s', l'), Ok r) ->
  exists calls, l' = l ++ calls /\ forall G, Forall (nagree_at F G) calls -> broyden_iterate G x opts stats quiet s = (s', Ok r).
Proof. exact (fun T HS HL St F x opts stats quiet => nlocal_all F _ (fun G => broyden_iterate G x opts stats quiet) (fun G => nl_broyden F G x opts stats quiet)). Qed.
Print Assumptions C131_broyden_depends_on_its_calls.
Theorem C131_verify_depends_on_its_calls :
  forall (T : Type) (HS : Scalar T) (HL : LinAlg T) (St : Type) (F : nfunctor T St) x s l s' l' r,
  verify_jacobi_matrix (nlogged F) x (s, l) = ((s', l'), Ok r) ->
  exists calls, l' = l ++ calls /\ forall G, Forall (nagree_at F G) calls -> verify_jacobi_matrix G x s = (s', Ok r).
Proof. exact (fun T HS HL St F x => nlocal_all F _ (fun G => verify_jacobi_matrix G x) (fun G => nl_verify F G x)). Qed.
Print Assumptions C131_verify_depends_on_its_calls.
(** ... and broyden_iterate does not depend on the Jacobian of the system at all, whatever the outcome. *)
Theorem C131_broyden_ignores_the_jacobian :
  forall (T : Type) (HS : Scalar T) (HL : LinAlg T) (St : Type) (F G : nfunctor T St) x opts stats quiet s,
  (forall y u, n_fun F y u = n_fun G y u) -> broyden_iterate F x opts stats quiet s = broyden_iterate G x opts stats quiet s.
Proof. exact (fun T HS HL St => @broyden_no_jac T HS HL St). Qed.
Print Assumptions C131_broyden_ignores_the_jacobian.
(** The circle and the hyperbola of C51 in binary64, from (3, 1/2): what the system does outside the box 0 <= x, y <= 4 is irrelevant. *)
Example C131_example : exists x st pr,
  @newton_iterate f64 ex_S ng_LA (ng_E (@sZ _ ex_S 0)) _ ng_sys [@sZ _ ex_S 3; @slit _ ex_S 5 (-1)] (ng_opts 50 10 false false) (@status_default _ ex_S) true tt = (tt, Ok (x, st, pr)) /\
  @newton_iterate f64 ex_S ng_LA (ng_E (@sZ _ ex_S 0)) _ ng_box [@sZ _ ex_S 3; @slit _ ex_S 5 (-1)] (ng_opts 50 10 false false) (@status_default _ ex_S) true tt = (tt, Ok (x, st, pr)) /\
  st_conv st = Newton.SUCCESS /\ n_fun ng_box [@sZ _ ex_S 5; @sZ _ ex_S 5] tt <> n_fun ng_sys [@sZ _ ex_S 5; @sZ _ ex_S 5] tt.
Proof. exact box_same. Qed.

Local Open Scope R_scope.
(** C130.  In exact arithmetic a run of adams_bashforth, whatever its outcome, depends on the functor only at times from t0 on that are
    before t1 or within the order - 1 steps with which the method starts ... *)
Theorem C130_ab_outside_irrelevant :
  forall (HL : LinAlg R) (HE : Env R) (St : Type) (F G : functor R St) t0 t1 y0 dt, (ndebug = false \/ (t0 < t1 /\ 0 < dt)) ->
  forall fuel order w,
  (forall c, reached t0 t1 (t0 + INR (Z.to_nat order - 1) * Rmin dt (t1 - t0)) (call_time c) -> agree_at F G c) ->
  adams_bashforth fuel F t0 t1 y0 order dt w = adams_bashforth fuel G t0 t1 y0 order dt w.
Proof. exact (fun HL HE St => @ab_window HL HE St). Qed.
Print Assumptions C130_ab_outside_irrelevant.
(** ... and a run of bdf only at times from t0 on that are before t1 + h or within the order steps with which it starts. *)
Theorem C130_bdf_outside_irrelevant :
  forall (HL : LinAlg R) (HE : Env R) (St : Type) (F G : functor R St) t0 t1 y0 dt, (ndebug = false \/ (t0 < t1 /\ 0 < dt)) ->
  forall fuel order w,
  (forall c, reached t0 (t1 + Rmin dt (t1 - t0)) (t0 + INR (Z.to_nat order) * Rmin dt (t1 - t0)) (call_time c) -> agree_at F G c) ->
  bdf fuel F t0 t1 y0 order dt w = bdf fuel G t0 t1 y0 order dt w.
Proof. exact (fun HL HE St => @bdf_window HL HE St). Qed.
Print Assumptions C130_bdf_outside_irrelevant.
(** A run of bdf does depend on the functor beyond t1: two functors that agree at all times up to t1, two runs that return, with
    different results. *)
Theorem C130_bdf_uses_only_the_interval_refuted : exists h, 0 < h /\ 3 / 2 - 3 / 2 * h < 3 / 2 /\
  (forall c, call_time c <= 3 / 2 -> agree_at (it_F (fun _ => 0)) (it_F mw_g) c) /\
  exists f1 f2 w1 w2 r1 r2,
  @bdf R RScalar choice_LA it_E unit f1 (it_F (fun _ => 0)) (3 / 2 - 3 / 2 * h) (3 / 2) [0; 0] 1 h (World tt []) = (w1, Ok r1) /\
  @bdf R RScalar choice_LA it_E unit f2 (it_F mw_g) (3 / 2 - 3 / 2 * h) (3 / 2) [0; 0] 1 h (World tt []) = (w2, Ok r2) /\
  bo_y_vals r1 <> bo_y_vals r2.
Proof. exact bdf_beyond. Qed.
Print Assumptions C130_bdf_uses_only_the_interval_refuted.
(** y' = (cos t, - cos t) up to t = 3 and something else afterwards: runs up to t = 2 with steps of at most 1/10 do not notice; and
    those with small enough steps return. *)
Example C130_example :
  (forall fuel order dt w, (1 <= order <= 5)%Z -> 0 < dt <= 1 / 10 ->
   @adams_bashforth R RScalar choice_LA it_E unit fuel (it_F mw_late) 0 2 [1; 0] order dt w = @adams_bashforth R RScalar choice_LA it_E unit fuel (it_F cos) 0 2 [1; 0] order dt w) /\
  (forall fuel order dt w, (1 <= order <= 6)%Z -> 0 < dt <= 1 / 10 ->
   @bdf R RScalar choice_LA it_E unit fuel (it_F mw_late) 0 2 [1; 0] order dt w = @bdf R RScalar choice_LA it_E unit fuel (it_F cos) 0 2 [1; 0] order dt w) /\
  exists dt fuel w' r, 0 < dt <= 1 / 10 /\ @bdf R RScalar choice_LA it_E unit fuel (it_F mw_late) 0 2 [1; 0] 2 dt (World tt []) = (w', Ok r).
Proof.
  split; [exact mw_same_ab|]. split; [exact mw_same_bdf|]. destruct (it_multistep_short cos it_cos) as (h1 & P1 & Q1).
  assert (Hm : 0 < Rmin h1 (1 / 10) <= 1 / 10) by (split; [apply Rmin_glb_lt; lra|apply Rmin_r]).
  destruct (proj2 (Q1 0 2 (Rmin h1 (1 / 10)) [1; 0] 2%Z (World tt []) eq_refl ltac:(lra) (conj (proj1 Hm) (Rmin_l _ _))) ltac:(lia)) as (f1 & w1 & r1 & R1).
  exists (Rmin h1 (1 / 10)), f1, w1, r1. split; [exact Hm|]. rewrite mw_same_bdf; [exact R1|lia|exact Hm].
Qed.
