(** Adaptive runs with limited steps return on every smooth problem, with the accuracy of the method. *)
From Coq Require Import Reals Lra Sorting.Sorted.
From Coquelicot Require Import Coquelicot.
From Verif Require Import Model.Base Model.Scalar Model.LinAlg Model.Enums Model.Options Model.Coeffs Model.ErkCoeffs Model.Erk.
From Verif Require Import Spec.Sums Spec.Trees Spec.RkSpec Spec.Observe Spec.ErkSpec Spec.Methods Spec.ConvergenceSpec.
From Verif Require Import Proofs.SumsProofs Proofs.RVec Proofs.OrderProofs Proofs.TablesGeneric Proofs.ErkCoeffsProofs Proofs.ErkProofs Proofs.ErkRun Proofs.ErkGeneric Proofs.ErkReal Proofs.ErkTimes Proofs.ErkTotal Proofs.ErkExact Proofs.ErkFinal Proofs.ErkBounded Proofs.OrderTheory Proofs.Convergence Proofs.ConvergenceErk.
Local Open Scope R_scope.

Lemma erk_smooth_halts m p p2 P n f phi t0 t1 r : In (m, p, p2) explicit_orders -> (1 <= P <= p)%nat -> t0 < t1 -> 0 < r -> (0 < n)%nat ->
  solves n f t0 t1 phi -> smooth_near P n r t0 t1 f phi -> preserves_dim f n ->
  exists h0, 0 < h0 /\
  forall (HE : Env R) (HL : LinAlg R) (HX : ExactProducts HL) (St : Type) (F : functor R St), total_fun F f ->
  forall opts oo dt, (write_to_file oo = true -> output_stream oo <> None) -> eo_adaptive opts = true -> In m explicit_embedded ->
  0 < eo_abs_tol opts -> 0 <= eo_rel_tol opts -> 0 < dt <= h0 -> 0 < eo_max_dt opts <= h0 ->
  forall w, exists fuel w' sol, erk_odeint fuel F t0 t1 (phi t0) opts oo m dt w = (w', Ok sol).
Proof.
  intros Hin HPp Ht Hr Hn0 Hs (M & df & Hd) Hf.
  destruct (TablesFinal.erk_orders m p p2 Hin) as (sc & s & Hfa).
  pose proof (ef_get _ _ _ _ _ Hfa) as Hg. destruct (dims_of sc s (ef_dims _ _ _ _ _ Hfa)) as (Ls & _). 
  assert (Hm : In m explicit_methods).
  { simpl in Hin. repeat (destruct Hin as [Hin|Hin]; [injection Hin as <- <- <-; simpl; tauto|]). contradiction. }
  destruct (sc_facts m sc Hm Hg) as (_ & _ & Hlow & Hrow & Hb). destruct (ef_exact _ _ _ _ _ Hfa) as [Ho _]. rewrite <- Ls in Ho. clear Ls.
  assert (HM1 : 0 <= Rmax M 1) by (apply Rle_trans with 1; [lra|apply Rmax_r]).
  destruct (safe_steps (S n) P (Rmax M 1) (adf df) HM1 (proj1 HPp) (length (sc_b sc)) (mfun (sc_A sc)) (vfun (sc_b sc)) Hlow t0 t1 r (fun t => aug t (phi t)) Ht Hr (fun t Hv => Ho t (Nat.le_trans _ _ _ Hv (proj2 HPp)))
    (aug_good P n M r t0 t1 f phi df Hd) (aug_flow P n M r t0 t1 f phi df Hs Hd)) as (h0 & G & bd & Hh0 & HG & B0 & Bb & K).
  exists h0. split; [exact Hh0|]. intros HE HL HX St F HF opts oo dt Hoo Had Hemb Hat Hrt Hdt Hmd w.
  assert (Hn : length (phi t0) = n) by apply Hs.
  apply (erk_guarded_halts F f t0 t1 (phi t0) opts oo m dt (Rmax M 1) (fun t y => small (S n) (bd h0 t) (fun q => aug t y q - aug t (phi t) q)) (fun d => d <= h0) HF); try assumption; try lra.
  - rewrite Hn. exact Hf.
  - intros sc' Hg' t y d y' ks Htt Hy Hd1 Hd0 h RK. rewrite Hg in Hg'. injection Hg' as <-. rewrite Hn in * .
    destruct (aug_step P n M r t0 t1 f phi df Hd _ _ _ _ _ _ _ _ _ RK Hrow Hb) as (Z & A1 & A2 & A3).
    assert (Hh : 0 <= h <= h0). { unfold h. split; [apply Rmin_glb; lra|]. eapply Rle_trans; [apply Rmin_l|exact Hd1]. }
    assert (Hth : t + h <= t1). { pose proof (Rmin_r d (t1 - t)). fold h in H. lra. }
    destruct (K h0 t (aug t y) h Z Hh ltac:(lra) ltac:(lra) Hth Hy A1) as (K1 & K2). split.
    + intros i q Hi Hq. rewrite <- (A3 i q Hi Hq). apply (K1 i (S q) Hi). lia.
    + intros q Hq. specialize (K2 q Hq). cbv beta in K2. rewrite <- A2 in K2 by exact Hq. exact K2.
  - intros mo err h He Hh. rewrite new_dt_R by exact He. destruct (Rlt_dec 0 (eo_max_dt opts)); [|lra]. eapply Rle_trans; [apply Rmin_l|lra].
  - intros q Hq. rewrite Rminus_diag_eq, Rabs_R0 by reflexivity. rewrite B0. lra.
  - rewrite clip_R. eapply Rle_trans; [apply Rmin_l|lra].
  - intros E. rewrite E in Hn. simpl in Hn. lia.
Qed.

Theorem erk_adaptive_solves m p p2 P n f phi t0 t1 r : In (m, p, p2) explicit_orders -> (1 <= P <= p)%nat -> t0 < t1 -> 0 < r -> (0 < n)%nat ->
  solves n f t0 t1 phi -> smooth_near P n r t0 t1 f phi -> preserves_dim f n ->
  exists h0 C, 0 < h0 /\ 0 <= C /\
  forall (HE : Env R) (HL : LinAlg R) (HX : ExactProducts HL) (St : Type) (F : functor R St), total_fun F f ->
  forall opts oo dt H, (write_to_file oo = true -> output_stream oo <> None) -> eo_adaptive opts = true -> In m explicit_embedded ->
  0 < eo_abs_tol opts -> 0 <= eo_rel_tol opts -> (eo_max_steps opts < 0)%Z -> 0 < dt <= H -> 0 < eo_max_dt opts <= H -> H <= h0 ->
  forall w, exists w' sol, (exists fuel0, forall fuel, (fuel0 <= fuel)%nat -> erk_odeint fuel F t0 t1 (phi t0) opts oo m dt w = (w', Ok sol)) /\
  eo_status sol = SUCCESS /\ last (eo_t_vals sol) t0 = t1 /\
  (forall k q, (k < length (eo_t_vals sol))%nat -> (q < n)%nat ->
    Rabs (ventry (nth k (eo_y_vals sol) []) q - ventry (phi (nth k (eo_t_vals sol) 0)) q) <= C * H ^ P).
Proof.
  intros Hin HPp Ht Hr Hn0 Hs Hsm Hf.
  destruct (erk_smooth_halts m p p2 P n f phi t0 t1 r Hin HPp Ht Hr Hn0 Hs Hsm Hf) as (h1 & Hh1 & K1).
  destruct (erk_adaptive_converges m p p2 P n f phi t0 t1 r Hin HPp Ht Hr Hs Hsm) as (h2 & C & Hh2 & HC & K2).
  exists (Rmin h1 h2), C. split; [apply Rmin_glb_lt; assumption|]. split; [exact HC|].
  intros HE HL HX St F HF opts oo dt H Hoo Had Hemb Hat Hrt Hms Hdt Hmd HH w.
  pose proof (Rmin_l h1 h2) as Hl1. pose proof (Rmin_r h1 h2) as Hl2.
  destruct (K1 HE HL HX St F HF opts oo dt Hoo Had Hemb Hat Hrt ltac:(lra) ltac:(lra) w) as (fuel & w' & sol & Hrun).
  exists w', sol. split; [exists fuel; intros fuel' Hf'; exact (erk_odeint_more F fuel fuel' _ _ _ _ _ _ _ _ _ _ Hf' Hrun)|].
  assert (Hok : eo_status sol = SUCCESS).
  { destruct (erk_limit F fuel t0 t1 (phi t0) opts oo m dt w w' sol Hrun) as [[E _]|(_ & _ & E & _)]; [exact E|lia]. }
  split; [exact Hok|]. split.
  - destruct (erk_times F _ _ _ _ _ _ _ _ _ _ _ (or_intror (conj Ht (proj1 Hdt))) Hrun) as (_ & _ & Hl). exact (Hl Hok).
  - apply (K2 HE HL HX St F (total_computes _ _ HF) fuel opts oo dt w w' sol H Hrun Had Hemb Hdt Hmd). lra.
Qed.
