(** Runge-Kutta runs stay at an equilibrium (C124). *)
From Coq Require Import Reals Lra.
From Verif Require Import Model.Base Model.Scalar Model.LinAlg Model.Newton Model.Enums Model.Options Model.Coeffs Model.ErkCoeffs Model.Erk Model.Irk Model.IrkCoeffs.
From Verif Require Import Spec.Sums Spec.Trees Spec.RkSpec Spec.Observe Spec.ErkSpec Spec.NewtonSpec Spec.IrkSpec Spec.IrkRunSpec Spec.Methods.
From Verif Require Import Proofs.LoopProofs Proofs.SumsProofs Proofs.TablesFinal Proofs.ErkProofs Proofs.ErkRun Proofs.ErkGeneric Proofs.ErkReal Proofs.ErkExact Proofs.ErkTotal Proofs.ErkFinal Proofs.Mesh.
From Verif Require Import Proofs.RVec Proofs.IrkProofs Proofs.IrkReal Proofs.IrkRun Proofs.IrkMaster Proofs.IrkFinal Proofs.IrkExact.
Local Open Scope R_scope.

(** explicit *)
Section Erk.
  Context {LA : LinAlg R} {HP : ExactProducts LA} {HE : Env R} {St : Type}.
  Variables (F : functor R St) (f : R -> list R -> list R).
  Hypothesis Hf : computes F f.
  Lemma rest_step n s a b c t h y : length y = n -> (forall i, (i < s)%nat -> f (t + c i * h) y = vtab n (fun _ => 0)) ->
    rk_step n s a b c f t h y y (repeat (vtab n (fun _ => 0)) s).
  Proof.
    intros Ly Hz.
    assert (E0 : forall w q, (q < n)%nat -> ventry y q + h * Rsum s (fun j => w j * ventry (nth j (repeat (vtab n (fun _ : nat => 0)) s) []) q) = ventry y q).
    { intros w q Hq. rewrite (Rsum_0 s); [ring|]. intros j Hj. rewrite (nth_indep _ [] (vtab n (fun _ => 0))) by (rewrite repeat_length; exact Hj). rewrite nth_repeat. unfold ventry. rewrite vtab_nth by exact Hq. simpl. ring. }
    assert (Ev : vtab n (ventry y) = y).
    { apply (nth_ext _ _ 0 0); [rewrite vtab_length; symmetry; exact Ly|]. intros q Hq. rewrite vtab_length in Hq. rewrite vtab_nth by exact Hq. reflexivity. }
    split; [apply repeat_length|]. split.
    - intros i Hi. rewrite (nth_indep _ [] (vtab n (fun _ => 0))) by (rewrite repeat_length; exact Hi). rewrite nth_repeat. split; [apply vtab_length|]. etransitivity; [symmetry; exact (Hz i Hi)|]. f_equal. rewrite <- Ev at 1. apply vtab_ext. intros q Hq. symmetry. apply E0. exact Hq.
    - rewrite <- Ev at 1. apply vtab_ext. intros q Hq. symmetry. apply E0. exact Hq.
  Qed.
  Lemma erk_equilibrium fuel t0 t1 y0 opts oo m dt w w' sol : erk_odeint fuel F t0 t1 y0 opts oo m dt w = (w', Ok sol) ->
    (forall t, f t y0 = vtab (length y0) (fun _ => 0)) -> forall k, (k < length (eo_y_vals sol))%nat -> nth k (eo_y_vals sol) [] = y0.
  Proof.
    intros Hr Hz. destruct (erk_is_rk F f Hf _ _ _ _ _ _ _ _ _ _ _ Hr) as (sc & G & K).
    pose proof (@erk_aligned R RScalar LA HE St F _ _ _ _ _ _ _ _ _ _ _ Hr) as A. cbv zeta in A. destruct A as (_ & Ly & _ & _ & _ & _ & Y1 & _ & _ & st & Hst & _).
    pose proof (counted_method m st Hst) as Hm.
    assert (Hlow : forall p q, (p < length (sc_b sc))%nat -> (p <= q < length (sc_b sc))%nat -> mentry (sc_A sc) p q = 0).
    { intros p q Hp Hq. destruct (erk_rows m sc Hm G) as (_ & Hw). apply (proj2 (Hw p Hp) q Hq). }
    induction k as [|k IH]; intros Hk; [exact (nth_error_nth _ _ [] Y1)|].
    destruct (K k ltac:(lia)) as (Ks & _ & P). rewrite IH in P by lia.
    refine (proj1 (rk_step_unique _ _ _ _ _ _ _ _ _ _ _ _ _ Hlow P (rest_step _ _ _ _ _ _ _ _ eq_refl _))). intros. apply Hz.
  Qed.
End Erk.

(** implicit *)
Lemma rest_reached n s a c f t h y (jac : mat R -> Prop) : length y = n -> (forall t, f t y = vtab n (fun _ => 0)) ->
  (forall J M, jac J -> is_stage_matrix n s a h J M -> mat_wf M -> invertible M) ->
  forall Y, newton_reaches n s a c f t h y jac false Y -> forall k, (k < n * s)%nat -> ventry Y k = 0.
Proof.
  intros Ly Hz Hinv. induction 1 as [|Y Y' J d HY IH HJ HN]; intros k Hk.
  - unfold vzeros, ventry. rewrite nth_repeat. simpl. unfold Rlit. simpl. ring.
  - destruct HN as (L1 & L2 & L3 & HY' & M & HM & HMw & Hsol). pose proof (Hinv _ _ HJ HM HMw) as Hi. specialize (Hsol Hi). destruct HM as (M1 & M2 & _).
    assert (Ed : d = vtab (n * s) (fun _ => 0)).
    { apply (solution_unique M d _ (vtab (n * s) (fun _ => 0)) Hi).
      - split; [rewrite M2; lia|]. split; [rewrite vtab_length; congruence|]. rewrite M1, M2. intros r Hr. rewrite ventry_vt by exact Hr. assert (Hn : n <> 0%nat) by nia.
        pose proof (Nat.mod_upper_bound r n Hn) as Hr2. pose proof (Nat.div_mod r n Hn) as Er. assert (Hr1 : (r / n < s)%nat) by (apply Nat.div_lt_upper_bound; assumption).
        pose proof (Hsol _ _ Hr1 Hr2) as Hs. unfold stage_defect in Hs. rewrite <- Er in Hs. rewrite Hs, IH by exact Hr.
        rewrite (Rsum_0 s); [ring|]. intros j Hj. unfold stage_slope.
        assert (Ep : stage_point n y Y j = y).
        { unfold stage_point. apply (nth_ext _ _ 0 0); [rewrite vtab_length; symmetry; exact Ly|]. intros q Hq. rewrite vtab_length in Hq. rewrite vtab_nth by exact Hq. rewrite IH by nia. unfold ventry. simpl. ring. }
        rewrite Ep, Hz, ventry_vt by exact Hr2. ring.
      - split; [rewrite vtab_length; congruence|]. split; [rewrite vtab_length; congruence|]. rewrite M1, M2. intros r Hr. rewrite ventry_vt by exact Hr. apply Rsum_0. intros j Hj. rewrite ventry_vt by exact Hj. ring. }
    rewrite HY', IH by exact Hk. rewrite Ed, ventry_vt by exact Hk. ring.
Qed.
Section Irk.
  Context {LA : LinAlg R} {HP : ExactProducts LA} {HX : ExactSolve LA} {HLU : ExactLU LA} {HI : ExactInverse LA} {HE : Env R} {St : Type}.
  Variables (F : functor R St) (f : R -> list R -> list R).
  Hypothesis Hf : computes F f.
  Hypothesis HJ : jac_matrices F.
  Lemma irk_equilibrium fuel t0 t1 y0 opts oo m dt w w' sol : (ndebug = false \/ (t0 < t1 /\ 0 < dt)) ->
    irk_odeint fuel F t0 t1 y0 opts oo m dt w = (w', Ok sol) ->
    (forall t, f t y0 = vtab (length y0) (fun _ => 0)) ->
    (forall sc, irk_get_coefficients m = Ok sc -> forall t J h M, jac_answers F t y0 J -> 0 < h <= t1 - t0 ->
       is_stage_matrix (length y0) (length (sc_b sc)) (mfun (sc_A sc)) h J M -> mat_wf M -> invertible M) ->
    forall k, (k < length (io_y_vals sol))%nat -> nth k (io_y_vals sol) [] = y0.
  Proof.
    intros Hstart Hrun Hz Hinv k Hk.
    destruct (irk_run_R F f Hf HJ fuel t0 t1 y0 opts oo m dt Hstart _ _ _ Hrun) as (sc & nopts & atts & M1 & M2 & M3 & M3o & M3b & M4 & M5 & M6 & M7 & M8 & _).
    set (P := fun (_ : R) (y : list R) => y = y0).
    destruct (chain_inv P t0 y0 atts M7) as (_ & C1 & _); [reflexivity| |].
    - intros x Hx Ho IH. unfold P in * . rewrite Forall_forall in M8. destruct (M8 x Hx) as (N1 & N2 & N3 & N4).
      destruct (N4 ltac:(congruence)) as (_ & _ & Y & J & d & d2 & [S1 S2 S3 (Y0 & J0 & e & S4 & S5 & S6 & S7) S8 S9 S10 [S11 S12] S13 S14]). rewrite IH in * .
      apply (nth_ext _ _ 0 0); [exact S11|]. intros p Hp. rewrite S11 in Hp. fold (ventry (ia_yn x) p) (ventry y0 p). rewrite S12 by exact Hp. unfold weighted.
      rewrite (Rsum_0 (length (sc_b sc))); [ring|]. intros i Hi.
      rewrite (rest_reached (length y0) (length (sc_b sc)) (mfun (sc_A sc)) (vfun (sc_c sc)) f (ia_t x) (ia_dt x) y0 (jac_answers F (ia_t x) y0) eq_refl Hz) with (Y := Y); [ring| | |nia].
      + intros J1 M HJ1 HM HMw. apply (Hinv sc M1 (ia_t x) J1 (ia_dt x) M); auto; lra.
      + eapply reach_next; [exact S4|exact S5|exact S6].
    - assert (El : length (io_y_vals sol) = length (io_t_vals sol)) by (destruct M6 as (R1 & R2 & _); rewrite R1, R2; simpl; rewrite !map_length; reflexivity).
      exact (records_inv P t0 y0 oo atts sol 0 M6 eq_refl C1 k ltac:(lia)).
  Qed.
End Irk.
