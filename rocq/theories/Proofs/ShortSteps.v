(** Bounded problems need no assumption about the linear systems; y' = (sin y_1, cos y_0) is one. *)
From Coq Require Import Reals Lra.
From Verif Require Import Model.Base Model.Scalar Model.LinAlg Model.Newton Model.Enums Model.Options Model.Coeffs Model.IrkCoeffs Model.Irk Model.Multistep.
From Verif Require Import Spec.Sums Spec.Observe Spec.NewtonSpec Spec.IrkSpec Spec.IrkTotalSpec Spec.ConvergenceSpec.
From Verif Require Import Proofs.SumsProofs Proofs.RVec Proofs.TablesGeneric Proofs.IrkShort Proofs.IrkReturns Proofs.ConvergenceIrk.
Local Open Scope R_scope.

Section Bounded.
  Context {LA : LinAlg R} {HP : ExactProducts LA} {HX : ExactSolve LA} {HLU : ExactLU LA} {HI : ExactInverse LA} {HE : Env R} {St : Type}.
  Lemma multistep_bounded (F : functor R St) f n B K :
    ndebug = false -> (0 < n)%nat -> 0 <= K -> returns_dim F n -> computes F f -> returns_jac F n -> jac_matrices F -> bounded_rhs F n B K ->
    (forall t y J p q, jac_answers F t y J -> (p < n)%nat -> (q < n)%nat -> Rabs (mentry J p q) <= K) ->
    exists hs, 0 < hs /\ forall t0 t1 dt y0 order w, length y0 = n -> t0 < t1 -> 0 < dt <= hs ->
      ((1 <= order <= 5)%Z -> exists fuel w' sol, adams_bashforth fuel F t0 t1 y0 order dt w = (w', Ok sol)) /\
      ((1 <= order <= 6)%Z -> exists fuel w' sol, bdf fuel F t0 t1 y0 order dt w = (w', Ok sol)).
  Proof.
    intros Hdeb Hn HK HF Hf HJ HJm HBK HJK. destruct (irk_get_ok (T := R) LOBATTO_IIIC_85) as (sc & Hsc & _).
    destruct (short_steps_solvable n sc K HK) as (hmax & Hh & Hsol). exact (multistep_short F f n sc B K hmax Hdeb Hsc Hn HF Hf HJ HJm HBK Hh (Hsol St F HJK)).
  Qed.
  Lemma irk_bounded (F : functor R St) f m n B K :
    ndebug = false -> In m implicit_runnable -> (0 < n)%nat -> 0 <= K -> returns_dim F n -> computes F f -> returns_jac F n -> jac_matrices F -> bounded_rhs F n B K ->
    (forall t y J p q, jac_answers F t y J -> (p < n)%nat -> (q < n)%nat -> Rabs (mentry J p q) <= K) ->
    exists h0, 0 < h0 /\ forall t0 t1 y0 opts oo dt nopts, length y0 = n -> t0 < t1 -> 0 < dt <= h0 -> 0 < io_max_dt opts <= h0 ->
      io_newton opts = Some nopts -> (2 <= o_maxit nopts)%Z -> 0 < o_tol nopts -> o_refresh_jac nopts <> 0%Z -> io_adaptive opts = true -> 0 < io_abs_tol opts -> 0 <= io_rel_tol opts ->
      usable_output oo -> (0 <= io_max_steps opts)%Z -> (o_maxit nopts * (16 + io_max_steps opts) < 2 ^ 34)%Z ->
      exists fuel0, forall fuel w, (fuel0 <= fuel)%nat -> exists w' sol, irk_odeint fuel F t0 t1 y0 opts oo m dt w = (w', Ok sol).
  Proof.
    intros Hdeb Hm Hn HK HF Hf HJ HJm HBK HJK. destruct (irk_get_ok (T := R) m) as (sc & Hsc & _).
    destruct (short_steps_solvable n sc K HK) as (hmax & Hh & Hsol). exists hmax. split; [exact Hh|]. intros t0 t1 y0 opts oo dt nopts Ly Ht Hdt Hmd H1 H2 H3 H4 H5 H6 H7 H8 H9 H10. subst n.
    apply (irk_returns F f t0 t1 y0 opts oo m dt nopts sc hmax B K); try assumption; [lra|apply Hsol; exact HJK|right; lra].
  Qed.
End Bounded.

Definition sc_f (t : R) (y : list R) : list R := [sin (ventry y 1); cos (ventry y 0)].
Definition sc_J (y : list R) : mat R := mtab 2 2 (fun i j => match i, j with 0%nat, 1%nat => cos (ventry y 1) | 1%nat, 0%nat => - sin (ventry y 0) | _, _ => 0 end).
Definition sc_F : functor R unit := Functor (fun t y => ret (sc_f t y)) (fun t y => ret (sc_J y)).
Lemma sc_jac t y J : jac_answers sc_F t y J -> J = sc_J y.
Proof. intros (s & s' & E). injection E as _ <-. reflexivity. Qed.
Lemma sc_J_bound t y J p q : jac_answers sc_F t y J -> (p < 2)%nat -> (q < 2)%nat -> Rabs (mentry J p q) <= 1.
Proof.
  intros HJ Hp Hq. rewrite (sc_jac _ _ _ HJ). unfold sc_J. rewrite mentry_vt by assumption. pose proof (COS_bound (ventry y 1)). pose proof (SIN_bound (ventry y 0)).
  destruct p as [|[|p]]; [| |lia]; destruct q as [|[|q]]; try lia; apply Rabs_le; lra.
Qed.
Lemma sc_hyps : returns_dim sc_F 2 /\ computes sc_F sc_f /\ returns_jac sc_F 2 /\ jac_matrices sc_F /\ bounded_rhs sc_F 2 1 1.
Proof.
  split; [intros t y s _; exists s, (sc_f t y); split; reflexivity|]. split; [intros t y s v Hv; injection Hv as <-; reflexivity|].
  split; [intros t y s _; exists s, (sc_J y); split; [reflexivity|]; split; [reflexivity|]; split; [reflexivity|]; apply mtab_wf|].
  split; [intros t y J HJ; rewrite (sc_jac _ _ _ HJ); apply mtab_wf|]. split.
  - intros t y s s' v p _ E Hp. injection E as _ <-. pose proof (SIN_bound (ventry y 1)). pose proof (COS_bound (ventry y 0)). destruct p as [|[|p]]; [change (Rabs (sin (ventry y 1)) <= 1)|change (Rabs (cos (ventry y 0)) <= 1)|lia]; apply Rabs_le; lra.
  - intros t y J p q _ HJ Hp Hq. exact (sc_J_bound t y J p q HJ Hp Hq).
Qed.
