(** bdf depends on the right-hand side beyond the end of the interval; and concrete cases beside C130 and C131. *)
From Coq Require Import Reals Lra.
From Verif Require Import Model.Base Model.Scalar Model.LinAlg Model.Newton Model.Enums Model.Options Model.Irk Model.Multistep.
From Verif Require Import Spec.Sums Spec.Observe Spec.ErkSpec Spec.NewtonSpec Spec.IrkSpec Spec.IrkTotalSpec Spec.MultistepSpec Spec.LocalitySpec Spec.MsLocalitySpec.
From Verif Require Import Proofs.SumsProofs Proofs.ChoiceInstance Proofs.ChoiceLU Proofs.IrkTotalExamples Proofs.MultistepProofs Proofs.MultistepResults Proofs.ConvergenceAb Proofs.MultistepConvExamples Proofs.ConvergenceBdf Proofs.MultistepReal Proofs.MsWindow.
Local Open Scope R_scope.

(** zero up to t = 3/2, one afterwards *)
Definition mw_g (t : R) : R := if Rlt_dec (3 / 2) t then 1 else 0.
Lemma mw_bound t : Rabs (mw_g t) <= 1.
Proof. unfold mw_g. destruct (Rlt_dec _ _); [rewrite Rabs_R1; lra|rewrite Rabs_R0; lra]. Qed.
Lemma zero_bound (t : R) : Rabs ((fun _ : R => 0) t) <= 1.
Proof. cbv beta. rewrite Rabs_R0. lra. Qed.

Lemma mw_value g h fuel w w' sol : 0 < h ->
  @bdf R RScalar choice_LA it_E unit fuel (it_F g) (3 / 2 - 3 / 2 * h) (3 / 2) [0; 0] 1 h w = (w', Ok sol) -> ventry (yval (bo_y_vals sol) 2) 0 = h * g (3 / 2 + h / 2).
Proof.
  intros Hh E. assert (Ho : (1 <= 1 <= 6)%Z) by lia.
  assert (Em : Rmin h (3 / 2 - (3 / 2 - 3 / 2 * h)) = h) by (apply Rmin_left; lra).
  pose proof (bdf_times _ _ _ _ _ _ _ _ _ _ E Ho) as (HNl & Htv & HkN & _ & Hend).
  destruct (bdf_affine_both choice_LA _ _ _ it_E unit (it_F g) _ (it_computes g) (it_matrices g) _ _ _ _ _ _ _ _ _ E Ho (fun t y J HJ _ _ => it_bdf_matrix g _ t y J HJ) (fun _ _ _ => 0) (fun t i => ventry (it_f g t []) i)) as (Hs & Hres).
  { intros t y i Ly Hi. rewrite Rsum_0 by (intros; ring). rewrite Rplus_0_l. reflexivity. }
  { intros t y J HJ p q Hp Hq. exact (it_zero g t y J p q HJ Hp Hq). }
  pose proof (bdf_starting _ _ _ _ _ _ _ _ _ _ E Ho) as (_ & Hst & _).
  cbv zeta in * . rewrite Em in * . change (Z.to_nat 1) with 1%nat in * .
  assert (HN : (2 < length (bo_t_vals sol))%nat).
  { destruct Hend as [(_ & He)|(He & _)]; [|rewrite Hs in He; discriminate He].
    destruct (Nat.eq_dec (length (bo_t_vals sol)) 2) as [X|X]; [|lia]. rewrite X in He. rewrite Htv in He by lia. cbn in He. lra. }
  pose proof (Hres 2%nat ltac:(rewrite HNl; lia) 0%nat ltac:(cbn; lia)) as Hr. unfold bdf_residual in Hr. cbn [Rsum Nat.sub] in Hr.
  assert (Y1 : yval (bo_y_vals sol) 1 = [0; 0]).
  { unfold yval. rewrite <- (firstn_skipn 2 (bo_y_vals sol)), Hst. reflexivity. }
  rewrite Y1 in Hr. change (ventry [0; 0] 0) with 0 in Hr. change (bdf_beta 1) with 1 in Hr.
  replace (3 / 2 - 3 / 2 * h + INR 2 * h) with (3 / 2 + h / 2) in Hr by (cbn; field). change (ventry (it_f g (3 / 2 + h / 2) (yval (bo_y_vals sol) 2)) 0) with (g (3 / 2 + h / 2)) in Hr. lra.
Qed.
Theorem bdf_beyond : exists h, 0 < h /\ 3 / 2 - 3 / 2 * h < 3 / 2 /\
  (forall c, call_time c <= 3 / 2 -> agree_at (it_F (fun _ => 0)) (it_F mw_g) c) /\
  exists f1 f2 w1 w2 r1 r2,
  @bdf R RScalar choice_LA it_E unit f1 (it_F (fun _ => 0)) (3 / 2 - 3 / 2 * h) (3 / 2) [0; 0] 1 h (World tt []) = (w1, Ok r1) /\
  @bdf R RScalar choice_LA it_E unit f2 (it_F mw_g) (3 / 2 - 3 / 2 * h) (3 / 2) [0; 0] 1 h (World tt []) = (w2, Ok r2) /\
  bo_y_vals r1 <> bo_y_vals r2.
Proof.
  destruct (it_multistep_short (fun _ => 0) zero_bound) as (h1 & P1 & Q1). destruct (it_multistep_short mw_g mw_bound) as (h2 & P2 & Q2).
  set (h := Rmin h1 h2). assert (Hh : 0 < h) by (apply Rmin_glb_lt; assumption). exists h. split; [exact Hh|]. split; [lra|]. split.
  { intros [t y|t y] Ht s; [|reflexivity]. cbn [call_time] in Ht. unfold it_F, it_f. cbn [f_fun]. unfold mw_g. destruct (Rlt_dec (3 / 2) t); [lra|reflexivity]. }
  destruct (proj2 (Q1 (3 / 2 - 3 / 2 * h) (3 / 2) h [0; 0] 1%Z (World tt []) eq_refl ltac:(lra) (conj Hh (Rmin_l _ _))) ltac:(lia)) as (f1 & w1 & r1 & R1).
  destruct (proj2 (Q2 (3 / 2 - 3 / 2 * h) (3 / 2) h [0; 0] 1%Z (World tt []) eq_refl ltac:(lra) (conj Hh (Rmin_r _ _))) ltac:(lia)) as (f2 & w2 & r2 & R2).
  exists f1, f2, w1, w2, r1, r2. split; [exact R1|]. split; [exact R2|]. intros E.
  pose proof (mw_value _ _ _ _ _ _ Hh R1) as V1. pose proof (mw_value _ _ _ _ _ _ Hh R2) as V2. rewrite E, V2 in V1. cbv beta in V1. unfold mw_g in V1. destruct (Rlt_dec (3 / 2) (3 / 2 + h / 2)); lra.
Qed.

(** y' = (cos t, - cos t) up to t = 3, something else afterwards: no run up to 2 with a step of at most 1/10 knows it *)
Definition mw_late (t : R) : R := if Rlt_dec 3 t then 100 else cos t.
Lemma mw_same_ab fuel order dt w : (1 <= order <= 5)%Z -> 0 < dt <= 1 / 10 ->
  @adams_bashforth R RScalar choice_LA it_E unit fuel (it_F mw_late) 0 2 [1; 0] order dt w = @adams_bashforth R RScalar choice_LA it_E unit fuel (it_F cos) 0 2 [1; 0] order dt w.
Proof.
  intros Ho Hdt. apply ab_window; [left; reflexivity|]. intros [t y|t y] (_ & Ht) s; cbn [call_time] in Ht; [|reflexivity]. unfold it_F, it_f, mw_late. cbn [f_fun].
  destruct (Rlt_dec 3 t); [|reflexivity]. exfalso. pose proof (Rmin_l dt (2 - 0)) as M. assert (INR (Z.to_nat order - 1) <= 4) by (replace 4 with (INR 4) by (cbn; lra); apply le_INR; lia). pose proof (pos_INR (Z.to_nat order - 1)).
  assert (INR (Z.to_nat order - 1) * Rmin dt (2 - 0) <= 4 * (1 / 10)) by (apply Rmult_le_compat; try lra; apply Rmin_glb; lra). lra.
Qed.
Lemma mw_same_bdf fuel order dt w : (1 <= order <= 6)%Z -> 0 < dt <= 1 / 10 ->
  @bdf R RScalar choice_LA it_E unit fuel (it_F mw_late) 0 2 [1; 0] order dt w = @bdf R RScalar choice_LA it_E unit fuel (it_F cos) 0 2 [1; 0] order dt w.
Proof.
  intros Ho Hdt. apply bdf_window; [left; reflexivity|]. intros [t y|t y] (_ & Ht) s; cbn [call_time] in Ht; [|reflexivity]. unfold it_F, it_f, mw_late. cbn [f_fun].
  destruct (Rlt_dec 3 t); [|reflexivity]. exfalso. pose proof (Rmin_l dt (2 - 0)) as M. assert (INR (Z.to_nat order) <= 6) by (replace 6 with (INR 6) by (cbn; lra); apply le_INR; lia). pose proof (pos_INR (Z.to_nat order)).
  assert (INR (Z.to_nat order) * Rmin dt (2 - 0) <= 6 * (1 / 10)) by (apply Rmult_le_compat; try lra; apply Rmin_glb; lra). lra.
Qed.

(** the circle and the hyperbola of C51 within the box 0 <= x, y <= 4, something else outside *)
From Verif Require Import Proofs.NewtonExamples Proofs.NaiveInstance Proofs.ErkExamples Proofs.NewtonLocality.
Section Box.
  Local Open Scope sc_scope.
  #[local] Existing Instance ex_S.
  Definition in_box (x : list f64) : bool := forallb (fun a => (sZ 0 <=?. a) && (a <=?. sZ 4)) x.
  Definition ng_box : nfunctor f64 unit := NFunctor
    (fun x s => if in_box x then n_fun ng_sys x s else (s, Ok []))
    (fun x s => if in_box x then n_jac ng_sys x s else (s, Err EUB)).
  Lemma box_calls : forallb (fun c => in_box (ncall_point c)) (snd (fst (ng_run (ng_opts 50 10 false false)))) = true.
  Proof. vm_compute. reflexivity. Qed.
  Lemma box_same : exists x st pr,
    @newton_iterate f64 ex_S ng_LA (ng_E (sZ 0)) _ ng_sys [sZ 3; slit 5 (-1)] (ng_opts 50 10 false false) status_default true tt = (tt, Ok (x, st, pr)) /\
    @newton_iterate f64 ex_S ng_LA (ng_E (sZ 0)) _ ng_box [sZ 3; slit 5 (-1)] (ng_opts 50 10 false false) status_default true tt = (tt, Ok (x, st, pr)) /\
    st_conv st = Newton.SUCCESS /\ n_fun ng_box [sZ 5; sZ 5] tt <> n_fun ng_sys [sZ 5; sZ 5] tt.
  Proof.
    destruct (ng_summary_ok _ _ _ _ _ _ ng_ok) as ([[] l'] & x & st & pr & E & Hc & _). exists x, st, pr. pose proof box_calls as Hb. rewrite E in Hb. cbn [fst snd] in Hb.
    unfold ng_run in E. destruct (nlocal_all ng_sys _ _ (fun G => nl_newton ng_sys G _ _ _ _) _ _ _ _ _ E) as (calls & Hl & Hall). cbn [app] in Hl. subst l'.
    split; [apply Hall; apply Forall_forall; intros [y r|y r] _ s; reflexivity|]. split.
    - apply Hall. apply Forall_forall. intros c Hc' . rewrite forallb_forall in Hb. specialize (Hb _ Hc'). destruct c as [y r|y r]; cbn [ncall_point] in Hb; intros s; cbn [ng_box n_fun n_jac]; rewrite Hb; reflexivity.
    - split; [exact Hc|]. assert (B : in_box [sZ 5; sZ 5] = false) by (vm_compute; reflexivity). unfold ng_box. cbn [n_fun]. rewrite B. unfold ng_sys, pure_system. cbn [n_fun]. intros X. inversion X.
  Qed.
End Box.
