(** Property theorem about newton.hpp (C114): convergence from every good enough initial guess. *)
From Coq Require Import Reals Lra.
From Coquelicot Require Import Coquelicot.
From Verif Require Import Model.Base Model.Scalar Model.LinAlg Model.Newton.
From Verif Require Import Spec.Sums Spec.NewtonSpec Spec.NewtonLocalSpec.
From Verif Require Import Proofs.NewtonLocal Proofs.NewtonLocalExamples Proofs.ChoiceInstance.
Local Open Scope R_scope.

(** C114.  Around a regular root there is a ball from which newton_iterate always converges: it reports SUCCESS after at
    most K + 1 iterations, every point visited is nearer to the root than the one before (doubling the exponent with fresh
    Jacobians, by a constant factor without), and the point returned is within th / (1 - th) times dx_delta of the root.
    The damping option only enlarges the factor th. *)
Theorem C114_newton_converges_locally :
  forall (HE : Env R) (LA : LinAlg R) (HP : ExactProducts LA) (HX : ExactSolve LA) (HN : ExactNorm LA) (St : Type) (F : nfunctor R St)
    f J z x opts stats quiet rho beta La L,
  answers F (length z) f J -> regular_root f J z rho beta La L -> near rho z x ->
  o_max_step opts <= 0 -> 0 < o_dx_delta opts -> (o_precondition opts = true -> junk = 0) ->
  let th := 2 * beta * La * rho + (if o_limit_step opts then INR (length z) * ((L * rho) * (L * rho)) else 0) in
  let dist k := rho * th ^ (if (o_refresh_jac opts >? 0)%Z then (2 ^ k - 1)%nat else k) in
  th < 1 ->
  forall K s l, 2 * dist K < o_dx_delta opts -> (Z.of_nat K + 1 < o_maxit opts)%Z ->
  exists s' v0 V x' st pr,
    newton_iterate (nlogged F) x opts stats quiet (s, l) = ((s', l ++ newton_log (o_refresh_jac opts >? 0)%Z v0 V), Ok (x', st, pr)) /\
    v_x v0 = x /\ (forall k v, nth_error (v0 :: V) k = Some v -> near (dist k) z (v_x v)) /\
    (1 <= length V <= K + 1)%nat /\ st_iters st = Z.of_nat (length V) /\
    st_conv st = SUCCESS /\ x' = v_x (last V v0) /\ near (th * (o_dx_delta opts / (1 - th))) z x'.
Proof. exact (fun HE LA HP HX HN St => @newton_local LA HP HE HX HN St). Qed.
Print Assumptions C114_newton_converges_locally.
Example C114_example : ExactProducts choice_LA /\ ExactSolve choice_LA /\ ExactNorm choice_LA /\
  answers nl_F 2 nl_f nl_J /\ regular_root nl_f nl_J [1; 1] (1 / 16) 2 2 4 /\ near (1 / 16) [1; 1] [17 / 16; 31 / 32] /\
  (forall limit : bool, 2 * 2 * 2 * (1 / 16) + (if limit then INR 2 * ((4 * (1 / 16)) * (4 * (1 / 16))) else 0) < 1) /\
  2 * (1 / 16 * (1 / 2 + 1 / 8) ^ (2 ^ 5 - 1)) < 1 / 10 ^ 6.
Proof. exact (conj _ (conj _ (conj _ (conj nl_answers (conj nl_regular (conj nl_start (conj nl_factor nl_five))))))). Qed.
