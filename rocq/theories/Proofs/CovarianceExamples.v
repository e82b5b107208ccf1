(** Concrete systems and runs beside C122 and C123. *)
From Coq Require Import Reals Lra.
From Verif Require Import Model.Base Model.Scalar Model.LinAlg Model.Enums Model.Options Model.Coeffs Model.Erk.
From Verif Require Import Spec.Sums Spec.Observe Spec.ErkSpec Spec.Methods Spec.Covariance.
From Verif Require Import Proofs.SumsProofs Proofs.ExactInstance Proofs.ErkGeneric Proofs.ErkTotal Proofs.ErkBounded Proofs.ErkExamples Proofs.ErkFinal.
Local Open Scope R_scope.

Definition ce_run (f : R -> list R -> list R) (fuel : nat) (a b dt : R) (y : list R) (m : Z) :=
  @erk_odeint R RScalar exact_LA (exr_E false) _ fuel (exr_fun f) a b y (exr_opts false) output_options_default m dt (World tt []).
Lemma ce_halts f a b dt y m : In m explicit_methods -> preserves_dim f (length y) -> a < b -> 0 < dt ->
  exists fuel w sol, ce_run f fuel a b dt y m = (w, Ok sol) /\ eo_status sol = SUCCESS.
Proof.
  intros Hm Hf Hab Hdt.
  assert (H : exists fuel w sol, ce_run f fuel a b dt y m = (w, Ok sol)).
  { apply erk_fixed_halts; try assumption; try lra; [exact (total_returns _ _ _ (exr_total f) Hf)|discriminate|left; reflexivity]. }
  destruct H as (fuel & w & sol & Hr). exists fuel, w, sol. split; [exact Hr|].
  unfold ce_run in Hr. destruct (@erk_limit R RScalar exact_LA (exr_E false) unit (exr_fun f) _ _ _ _ _ _ _ _ _ _ _ Hr) as [(H & _)|(_ & _ & H & _)]; [exact H|]. simpl in H. lia.
Qed.

(** x' = x^2 - t, y' = x y: its first component in other units (u = 100 x + 3, tau = 1000 t + 5) *)
Definition ce_f (t : R) (y : list R) : list R := [ventry y 0 ^ 2 - t; ventry y 0 * ventry y 1].
Definition ce_g (t : R) (z : list R) : list R := [100 * (((ventry z 0 - 3) / 100) ^ 2 - (t - 5) / 1000) / 1000].
Definition ce_M (q p : nat) : R := match p with O => 100 | _ => 0 end.
Lemma ce_conjugate : conjugate 2 1 ce_M (fun _ => 3) 1000 5 ce_f ce_g.
Proof.
  intros t y Hy. unfold ce_g, affine_map, linear_map, ce_f, vtab, ce_M, ventry. simpl. f_equal. field.
Qed.
Lemma ce_affine m : In m explicit_methods ->
  conjugate 2 1 ce_M (fun _ => 3) 1000 5 ce_f ce_g /\
  exists f1 f3 w1 w3 r1 r3, ce_run ce_f f1 0 1 (1 / 4) [1; 2] m = (w1, Ok r1) /\ eo_status r1 = SUCCESS /\
    ce_run ce_g f3 (1000 * 0 + 5) (1000 * 1 + 5) (1000 * (1 / 4)) [103] m = (w3, Ok r3) /\ eo_status r3 = SUCCESS /\
    [103] = affine_map 2 1 ce_M (fun _ => 3) [1; 2].
Proof.
  intros Hm. split; [exact ce_conjugate|].
  destruct (ce_halts ce_f 0 1 (1 / 4) [1; 2] m Hm) as (f1 & w1 & r1 & A1 & A2); [intros t y _; reflexivity|lra|lra|].
  destruct (ce_halts ce_g (1000 * 0 + 5) (1000 * 1 + 5) (1000 * (1 / 4)) [103] m Hm) as (f3 & w3 & r3 & B1 & B2); [intros t y _; reflexivity|lra|lra|].
  exists f1, f3, w1, w3, r1, r3. repeat (split; [assumption|]). unfold affine_map, vtab, ce_M, ventry. simpl. f_equal. lra.
Qed.

(** twice a linear system and three times a forced one *)
Definition ce_lin (t : R) (y : list R) : list R := [t * ventry y 1; - ventry y 0].
Definition ce_forced (t : R) (y : list R) : list R := [t * ventry y 1 + 1; - ventry y 0 + t].
Definition ce_sum (t : R) (y : list R) : list R := [t * ventry y 1 + 3; - ventry y 0 + 3 * t].
Lemma ce_superposes : superposes 2 2 3 ce_lin ce_forced ce_sum.
Proof. intros t x y _ _. unfold ce_sum, ce_lin, ce_forced, combination, vtab, ventry. simpl. f_equal; [ring|f_equal; ring]. Qed.
Lemma ce_super m : In m explicit_methods ->
  superposes 2 2 3 ce_lin ce_forced ce_sum /\
  exists f1 f2 f3 w1 w2 w3 r1 r2 r3, ce_run ce_lin f1 0 1 (1 / 4) [1; 0] m = (w1, Ok r1) /\ eo_status r1 = SUCCESS /\
    ce_run ce_forced f2 0 1 (1 / 4) [0; 1] m = (w2, Ok r2) /\ eo_status r2 = SUCCESS /\
    ce_run ce_sum f3 0 1 (1 / 4) (combination 2 2 3 [1; 0] [0; 1]) m = (w3, Ok r3) /\ eo_status r3 = SUCCESS.
Proof.
  intros Hm. split; [exact ce_superposes|].
  destruct (ce_halts ce_lin 0 1 (1 / 4) [1; 0] m Hm) as (f1 & w1 & r1 & A1 & A2); [intros t y _; reflexivity|lra|lra|].
  destruct (ce_halts ce_forced 0 1 (1 / 4) [0; 1] m Hm) as (f2 & w2 & r2 & B1 & B2); [intros t y _; reflexivity|lra|lra|].
  destruct (ce_halts ce_sum 0 1 (1 / 4) (combination 2 2 3 [1; 0] [0; 1]) m Hm) as (f3 & w3 & r3 & C1 & C2); [intros t y _; reflexivity|lra|lra|].
  exists f1, f2, f3, w1, w2, w3, r1, r2, r3. auto 10.
Qed.
