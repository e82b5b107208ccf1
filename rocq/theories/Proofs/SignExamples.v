(** Concrete problems beside C141. *)
From Coq Require Import Reals Lra Lia.
From Verif Require Import Model.Base Model.Scalar Model.LinAlg Model.Enums Model.Options Model.Coeffs Model.ErkCoeffs Model.Erk.
From Verif Require Import Spec.Sums Spec.Trees Spec.RkSpec Spec.Observe Spec.ErkSpec Spec.Methods Spec.SignSpec.
From Verif Require Import Proofs.SumsProofs Proofs.RVec Proofs.ExactInstance Proofs.ErkGeneric Proofs.ErkReal Proofs.ErkBounded Proofs.ErkTotal Proofs.ErkFinal Proofs.ErkExact Proofs.ErkExamples Proofs.SignErk.
Local Open Scope R_scope.

(** a decaying component that drives another one *)
Definition sg_f (lam t : R) (y : list R) : list R := [- lam * ventry y 0; ventry y 0 * ventry y 1 + t].
Definition sg_run (lam : R) (m : Z) (fuel : nat) := @erk_odeint R RScalar exact_LA (exr_E false) _ fuel (exr_fun (sg_f lam)) 0 1 [3; 1] (exr_opts false) output_options_default m (1 / 4) (World tt []).
Lemma sg_decays lam : decaying_component 2 0 lam (sg_f lam).
Proof. split; [lia|]. intros t y _. reflexivity. Qed.
Lemma sg_runs lam m : In m explicit_methods -> computes (exr_fun (sg_f lam)) (sg_f lam) /\ decaying_component 2 0 lam (sg_f lam) /\
  exists fuel w sol, sg_run lam m fuel = (w, Ok sol) /\ length (eo_y_vals sol) = 5%nat /\
    forall k, (S k < length (eo_y_vals sol))%nat -> lam * (nth (S k) (eo_t_vals sol) 0 - nth k (eo_t_vals sol) 0) = lam / 4.
Proof.
  intros Hm. split; [apply exr_computes|]. split; [apply sg_decays|].
  destruct (@fixed_final (exr_E false) exact_LA _ (exr_fun (sg_f lam)) 0 1 [3; 1] (exr_opts false) output_options_default m (1 / 4)
    (total_returns _ _ _ (exr_total (sg_f lam)) ((fun t y _ => eq_refl) : preserves_dim (sg_f lam) 2)) Hm ltac:(discriminate) ltac:(lra) ltac:(lra) (or_introl eq_refl) (World tt [])) as (n & w & sol & E & G & Hs & Hok).
  exists n, w, sol. split; [apply E; lia|]. destruct (Hs (Hok ltac:(reflexivity))) as (N & HN & [B1 B2] & HT).
  destruct (erk_aligned _ _ _ _ _ _ _ _ _ _ _ _ (E n (le_n n))) as (_ & HL & _).
  assert (EN : N = 4%nat).
  { assert (U : INR (N - 1) < 4) by lra. assert (V : 4 <= INR N) by lra. rewrite minus_INR in U by exact HN. cbn [INR] in U.
    assert (INR N < INR 5) by (cbn [INR]; lra). assert (INR 3 < INR N) by (cbn [INR]; lra). apply INR_lt in H, H0. lia. }
  subst N. assert (L : length (eo_t_vals sol) = 5%nat) by (rewrite HT; reflexivity). split; [lia|]. intros k Hk. rewrite HT.
  assert (K : (k < 4)%nat) by lia. do 4 (destruct k as [|k]; [cbn [map seq app nth INR]; field|]). lia.
Qed.
Lemma sg_signs : (forall m, In m explicit_methods -> keeps_sign m (2 / 4)) /\
  (forall m, In m [EXPLICIT_EULER; BOGACKI_SHAMPINE_32; FEHLBERG_54] -> changes_sign m (12 / 4) /\
   exists fuel w sol, sg_run 12 m fuel = (w, Ok sol) /\ ventry (nth 0 (eo_y_vals sol) []) 0 = 3 /\ ventry (nth 1 (eo_y_vals sol) []) 0 < 0).
Proof.
  split.
  { intros m H. unfold explicit_methods in H. cbn [In] in H. unfold keeps_sign. destruct H as [<-|[<-|[<-|[<-|[<-|[<-|[]]]]]]]; try (left; reflexivity); try (right; left; reflexivity);
    try (right; right; left; reflexivity); [do 3 right; left|do 4 right; left|do 5 right]; (split; [reflexivity|lra]). }
  intros m H. assert (C : changes_sign m (12 / 4)) by (cbn [In] in H; unfold changes_sign; destruct H as [<-|[<-|[<-|[]]]]; [left|right; left|right; right]; (split; [reflexivity|lra])).
  split; [exact C|]. assert (Hm : In m explicit_methods) by (cbn [In] in H; destruct H as [<-|[<-|[<-|[]]]]; cbn; tauto).
  destruct (sg_runs 12 m Hm) as (HF & HD & fuel & w & sol & E & L & D). exists fuel, w, sol. split; [exact E|].
  unfold sg_run in E. destruct (@y_first (exr_E false) exact_LA _ _ _ _ _ _ _ _ _ _ _ _ _ E) as [Y0 _]. rewrite Y0. split; [reflexivity|].
  destruct (@erk_sign (exr_E false) exact_LA exact_LA_products _ (exr_fun (sg_f 12)) (sg_f 12) _ _ _ [3; 1] _ _ _ _ _ _ _ 0%nat 12 HF HD E) as [_ S].
  apply (S 0%nat); [lia|rewrite D by lia; exact C|]. rewrite Y0. unfold ventry. cbn [nth]. lra.
Qed.
