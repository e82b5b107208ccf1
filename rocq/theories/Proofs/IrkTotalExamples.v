(** Problems to which the theorems about returning apply: y' = (g(t), -g(t)) with the Jacobian 0. *)
From Coq Require Import Reals Lra.
From Verif Require Import Model.Base Model.Scalar Model.LinAlg Model.Newton Model.Enums Model.Options Model.Coeffs Model.IrkCoeffs Model.Irk Model.Multistep.
From Verif Require Import Spec.Sums Spec.RkSpec Spec.Observe Spec.NewtonSpec Spec.IrkSpec Spec.IrkTotalSpec Spec.MultistepSpec.
From Verif Require Import Proofs.SumsProofs Proofs.RVec Proofs.ChoiceInstance Proofs.ChoiceLU Proofs.TablesGeneric Proofs.IrkGeneric Proofs.IrkExact Proofs.IrkReturns Proofs.IrkShort Proofs.MultistepReal Proofs.MultistepTotal.
Local Open Scope R_scope.

Definition it_f (g : R -> R) (t : R) (y : list R) : list R := [g t; - g t].
Definition it_J : mat R := mtab 2 2 (fun _ _ => 0).
Definition it_F (g : R -> R) : functor R unit := Functor (fun t y => ret (it_f g t y)) (fun t y => ret it_J).
#[export] Instance it_E : Env R := {| ndebug := false; junk := 0; clock := 1 |}.
Definition it_nopts : options R := Options (1 / 1000) (1 / 1000) 10 false (-1) 10 false false.
Definition it_opts (max_steps : Z) : irk_options R := IrkOptions true (1 / 1000) (1 / 1000) 0 max_steps (Some it_nopts).

Section Problem.
  Variable g : R -> R.
  Lemma it_dim : returns_dim (it_F g) 2.
  Proof. intros t y s Hy. exists s, (it_f g t y). split; reflexivity. Qed.
  Lemma it_computes : computes (it_F g) (it_f g).
  Proof. intros t y s v Hv. injection Hv as <-. reflexivity. Qed.
  Lemma it_jac t y J : jac_answers (it_F g) t y J -> J = it_J.
  Proof. intros (s & s' & E). injection E as _ <-. reflexivity. Qed.
  Lemma it_zero t y J p q : jac_answers (it_F g) t y J -> (p < 2)%nat -> (q < 2)%nat -> mentry J p q = 0.
  Proof. intros HJ Hp Hq. rewrite (it_jac _ _ _ HJ). unfold it_J. apply mentry_vt; assumption. Qed.
  Lemma it_returns_jac : returns_jac (it_F g) 2.
  Proof. intros t y s Hy. exists s, it_J. split; [reflexivity|]. split; [reflexivity|]. split; [reflexivity|]. repeat constructor. Qed.
  Lemma it_matrices : jac_matrices (it_F g).
  Proof. intros t y J HJ. rewrite (it_jac _ _ _ HJ). repeat constructor. Qed.
  Lemma it_solvable sc hmax : solvable_up_to (it_F g) 2 sc hmax.
  Proof.
    split.
    - intros t y J h M HJ Hh HM Hw. eapply zero_jacobian_matrix; [|exact HM]. intros p q Hp Hq. exact (it_zero _ _ _ _ _ HJ Hp Hq).
    - intros t y J h HJ _ _ _. apply (invertible_ext _ (mtab 2 2 delta)); [reflexivity|reflexivity|reflexivity| |apply eye_invertible].
      unfold one_minus. rewrite mtab_nrows. intros i j Hi Hj. rewrite !mentry_vt by assumption. rewrite (it_zero _ _ _ _ _ HJ Hi Hj). ring.
  Qed.
  Hypothesis Hg : forall t, Rabs (g t) <= 1.
  Lemma it_bounded : bounded_rhs (it_F g) 2 1 0.
  Proof.
    split.
    - intros t y s s' v p Hy E Hp. injection E as _ <-. destruct p as [|[|p]]; [| |lia]; unfold ventry, it_f; cbn [nth]; [apply Hg|rewrite Rabs_Ropp; apply Hg].
    - intros t y J p q Hy HJ Hp Hq. rewrite (it_zero _ _ _ _ _ HJ Hp Hq), Rabs_R0. lra.
  Qed.
  Lemma it_run m y0 : In m implicit_runnable -> length y0 = 2%nat -> exists fuel w' sol,
    @irk_odeint R RScalar choice_LA it_E unit fuel (it_F g) 0 2 y0 (it_opts 1000) output_options_default m (1 / 10) (World tt []) = (w', Ok sol).
  Proof.
    intros Hm Ly. destruct (irk_get_ok (T := R) m) as (sc & Hsc & _).
    destruct (irk_returns (LA := choice_LA) (it_F g) (it_f g) 0 2 y0 (it_opts 1000) output_options_default m (1 / 10) it_nopts sc 2 1 0) as (fuel & Hr);
      try reflexivity; try assumption; rewrite ?Ly; try (cbn; lra); try (cbn; lia).
    - split; [cbn; lia|cbn; discriminate].
    - apply it_dim.
    - apply it_computes.
    - apply it_returns_jac.
    - apply it_matrices.
    - apply it_bounded.
    - apply it_solvable.
    - exists fuel. exact (Hr fuel (World tt []) (le_n _)).
  Qed.
  Lemma it_starter : exists hs, 0 < hs /\ forall h y0, 0 < h <= hs -> length y0 = 2%nat -> @starter_returns R RScalar choice_LA it_E unit (it_F g) h y0.
  Proof.
    destruct (irk_get_ok (T := R) LOBATTO_IIIC_85) as (sc & Hsc & _).
    apply (starter_short (LA := choice_LA) (it_F g) (it_f g) 2 sc 1 0 1); try reflexivity; try assumption; try lra; try lia.
    - apply it_dim.
    - apply it_computes.
    - apply it_returns_jac.
    - apply it_matrices.
    - apply it_bounded.
    - apply it_solvable.
  Qed.
  (** runs of the multistep solvers over 20 steps *)
  Lemma it_multistep y0 : length y0 = 2%nat -> exists h, 0 < h /\
    (forall order, (1 <= order <= 5)%Z -> exists fuel w' sol, @adams_bashforth R RScalar choice_LA it_E unit fuel (it_F g) 0 (20 * h) y0 order h (World tt []) = (w', Ok sol)) /\
    (forall order, (1 <= order <= 6)%Z -> exists fuel w' sol, @bdf R RScalar choice_LA it_E unit fuel (it_F g) 0 (20 * h) y0 order h (World tt []) = (w', Ok sol)).
  Proof.
    intros Ly. destruct it_starter as (h & Hh & Hs). exists h. split; [exact Hh|].
    assert (Em : Rmin h (20 * h - 0) = h) by (apply Rmin_left; lra).
    split; intros order Ho.
    - apply (ab_halts (LA := choice_LA)); try lra; try assumption; [rewrite Ly; apply it_dim|]. right. rewrite Em. apply Hs; [lra|exact Ly].
    - apply (bdf_halts (LA := choice_LA)); try lra; try assumption; [rewrite Ly; apply it_dim| |]. { rewrite Em. apply Hs; [lra|exact Ly]. }
      rewrite Ly. intros t y s _. exists s, it_J. repeat split.
  Qed.
  (** the matrices of the BDF equations are invertible *)
  Lemma it_bdf_matrix c t y J : jac_answers (it_F g) t y J -> invertible (bdf_matrix 2 c J).
  Proof.
    intros HJ. apply (invertible_ext _ (mtab 2 2 delta)); [reflexivity|reflexivity|reflexivity| |apply eye_invertible].
    unfold bdf_matrix. rewrite mtab_nrows. intros i j Hi Hj. rewrite !mentry_vt by assumption. rewrite (it_zero _ _ _ _ _ HJ Hi Hj). ring.
  Qed.
End Problem.
Lemma it_cos t : Rabs (cos t) <= 1.
Proof. apply Rabs_le. apply COS_bound. Qed.
Lemma it_half (t : R) : Rabs (1 / 2) <= 1.
Proof. rewrite Rabs_pos_eq; lra. Qed.
