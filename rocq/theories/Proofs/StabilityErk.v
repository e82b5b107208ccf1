(** Explicit runs on y' = lambda y: which steps grow. *)
From Coq Require Import Reals Lra Lia.
From Verif Require Import Model.Base Model.Scalar Model.LinAlg Model.Enums Model.Options Model.Coeffs Model.ErkCoeffs Model.Erk.
From Verif Require Import Spec.Sums Spec.Trees Spec.RkSpec Spec.Observe Spec.ErkSpec Spec.Methods Spec.StabilitySpec.
From Verif Require Import Proofs.ErkExact Proofs.StabPoly.
Local Open Scope R_scope.

Section Runs.
  Context {HE : Env R} {HL : LinAlg R} {HX : ExactProducts HL} {St : Type}.
  Lemma erk_intervals (F : functor R St) f : computes F f ->
    forall fuel t0 t1 y0 opts oo m dt w w' sol, erk_odeint fuel F t0 t1 y0 opts oo m dt w = (w', Ok sol) ->
    forall lam, (forall t y q, length y = length y0 -> (q < length y0)%nat -> ventry (f t y) q = lam * ventry y q) ->
    forall z1 z2 z3, In (m, z1, z2, z3) real_limits ->
    forall k q, (S k < length (eo_y_vals sol))%nat -> (q < length y0)%nat ->
    let d := - (lam * (nth (S k) (eo_t_vals sol) 0 - nth k (eo_t_vals sol) 0)) in
    let size j := Rabs (ventry (nth j (eo_y_vals sol) []) q) in
    (0 <= d <= z1 -> size (S k) <= size k) /\ (z2 < d <= 12 \/ z3 < d -> size k <> 0 -> size k < size (S k)).
  Proof.
    intros HF fuel t0 t1 y0 opts oo m dt w w' sol Hrun lam Hf z1 z2 z3 Hm k q Hk Hq d size.
    destruct (erk_linear F f HF fuel t0 t1 y0 opts oo m dt w w' sol Hrun lam Hf) as (sc & Hg & Hs & _). pose proof (Hs k q Hk Hq) as E.
    destruct (limits_hold sc m z1 z2 z3 d Hm Hg) as [L1 L2]. unfold mfun, vfun in E. replace (lam * _) with (- d) in E by (unfold d; ring).
    assert (ES : size (S k) = Rabs (stability (length (sc_b sc)) (mentry (sc_A sc)) (ventry (sc_b sc)) (- d)) * size k) by (unfold size; rewrite E; apply Rabs_mult).
    assert (0 <= size k) by apply Rabs_pos. split; intros Hd.
    - rewrite ES. specialize (L1 Hd). rewrite <- (Rmult_1_l (size k)) at 2. apply Rmult_le_compat_r; assumption.
    - intros Hne. rewrite ES. specialize (L2 Hd). rewrite <- (Rmult_1_l (size k)) at 1. apply Rmult_lt_compat_r; lra.
  Qed.
End Runs.
