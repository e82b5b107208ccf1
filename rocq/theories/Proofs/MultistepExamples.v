(** Concrete runs of the multistep solvers: used only beside the property theorems, to show that their hypotheses are met by
    non-trivial runs. *)
From Coq Require Import Reals Lra.
From Verif Require Import Model.Base Model.Scalar Model.LinAlg Model.Newton Model.Enums Model.Options Model.Coeffs Model.IrkCoeffs Model.Irk Model.Multistep.
From Verif Require Import Spec.Sums Spec.Observe Spec.ErkSpec Spec.NewtonSpec Spec.IrkSpec Spec.MultistepSpec.
From Verif Require Import Proofs.SumsProofs Proofs.NaiveInstance Proofs.ErkExamples Proofs.IrkExamples Proofs.ExactInstance Proofs.ErkBounded Proofs.MultistepResults Proofs.MultistepTotal.

(** ** binary64 *)
Section F64.
  Local Open Scope sc_scope.
  (** some [pow]: enough for a run *)
  Definition mg_S : Scalar f64 := F64Scalar (fun _ _ => f64_lit 4 0).
  Definition mg_LA : LinAlg f64 := @gauss_LA f64 mg_S.
  #[local] Existing Instance mg_S.
  (** y' = - y^2 *)
  Definition mg_sq : functor f64 unit :=
    pure_functor (fun t y => match y with [a] => [-. (a *. a)] | _ => y end) (fun t y => match y with [a] => Mat 1 [[-. (sZ 2 *. a)]] | _ => mat_empty end).
  Definition mg_dt : f64 := slit 2 (-6).
  Definition mg_dt1 : f64 := slit 1 (-6).
  Definition mg_ab (nd : bool) (order : Z) (dt : f64) :=
    @adams_bashforth f64 mg_S mg_LA (ex_E nd) _ 60 mg_sq (sZ 0) (slit 1 (-5)) [sZ 1] order dt (World tt []).
  Definition mg_bdf (nd : bool) (order : Z) (dt : f64) :=
    @bdf f64 mg_S mg_LA (ex_E nd) _ 60 mg_sq (sZ 0) (slit 1 (-5)) [sZ 1] order dt (World tt []).
  Definition mg_summary {A} (r : A * res (basic_output f64)) : option (Z * nat * nat) :=
    match snd r with Ok s => Some (bo_status s, length (bo_t_vals s), length (bo_y_vals s)) | _ => None end.
  (** y' = 2^19 y: with the step size 2^-19 the matrix of the implicit Euler equation is singular *)
  Definition mg_stiff : functor f64 unit :=
    pure_functor (fun t y => match y with [a] => [sZ (2 ^ 19) *. a] | _ => y end) (fun t y => Mat 1 [[sZ (2 ^ 19)]]).
  Definition mg_fail :=
    @bdf f64 mg_S mg_LA (ex_E false) _ 60 mg_stiff (sZ 0) (sZ 8 /. sZ (2 ^ 19)) [sZ 0] 1 (sZ 1 /. sZ (2 ^ 19)) (World tt []).
  Lemma mg_ab_runs : mg_summary (mg_ab false 1 mg_dt) = Some (SUCCESS, 7, 7)%nat /\ mg_summary (mg_ab false 3 mg_dt) = Some (SUCCESS, 7, 7)%nat.
  Proof. vm_compute. split; reflexivity. Qed.
  Lemma mg_ab_high : mg_summary (mg_ab false 7 mg_dt) = Some (SUCCESS, 7, 7)%nat.
  Proof. vm_compute. reflexivity. Qed.
  Lemma mg_bdf_runs : mg_summary (mg_bdf false 2 mg_dt) = Some (SUCCESS, 7, 7)%nat /\ mg_summary mg_fail = Some (INTERNAL_SOLVE_FAILURE, 2, 2)%nat.
  Proof. vm_compute. split; reflexivity. Qed.
  Lemma mg_wrong_orders : snd (mg_ab false (-2) mg_dt) = Err (EThrow ELogic) /\ snd (mg_ab false 0 mg_dt) = Err EUB /\
    snd (mg_ab false 6 mg_dt1) = Err EAbort /\ snd (mg_ab true 2 mg_dt) = Err (EThrow ELogic) /\ snd (mg_bdf true 1 mg_dt) = Err (EThrow ELogic).
  Proof. vm_compute. repeat split; reflexivity. Qed.
  Lemma mg_c63 : snd (mg_ab false (-2) mg_dt) = Err (EThrow ELogic) /\ snd (mg_ab false 0 mg_dt) = Err EUB /\
    snd (mg_ab false 6 mg_dt1) = Err EAbort /\ snd (mg_ab true 2 mg_dt) = Err (EThrow ELogic) /\ snd (mg_bdf true 1 mg_dt) = Err (EThrow ELogic) /\
    mg_summary (mg_ab false 7 mg_dt) = Some (SUCCESS, 7, 7)%nat /\ mg_summary mg_fail = Some (INTERNAL_SOLVE_FAILURE, 2, 2)%nat.
  Proof.
    destruct mg_wrong_orders as (K1 & K2 & K3 & K4 & K5). split; [exact K1|]. split; [exact K2|]. split; [exact K3|]. split; [exact K4|]. split; [exact K5|].
    split; [exact mg_ab_high|exact (proj2 mg_bdf_runs)].
  Qed.
End F64.

(** ** the reals: a run of Euler's method for every right-hand side *)
Section Reals.
  Local Open Scope R_scope.
  Lemma mgr_euler f y0 : preserves_dim f (length y0) ->
    exists fuel w' sol, @adams_bashforth R RScalar exact_LA (exr_E false) _ fuel (exr_fun f) 0 1 y0 1 (2 / 3) (World tt []) = (w', Ok sol).
  Proof.
    intros Hf. apply (ab_halts (LA := exact_LA) (HE := exr_E false) (exr_fun f) 0 1 (2 / 3) y0); [exact (total_returns _ _ _ (exr_total f) Hf)|lra|lra|lia|left; reflexivity].
  Qed.
  Lemma mgr_overshoot f y0 : preserves_dim f (length y0) ->
    exists fuel w' sol, @adams_bashforth R RScalar exact_LA (exr_E false) _ fuel (exr_fun f) 0 1 y0 1 (2 / 3) (World tt []) = (w', Ok sol) /\ bo_t_vals sol = [0; 2 / 3; 4 / 3].
  Proof.
    intros Hf. destruct (mgr_euler f y0 Hf) as (fuel & w' & sol & Hr). exists fuel, w', sol. split; [exact Hr|].
    destruct (ab_times _ _ _ _ _ _ _ _ _ _ Hr) as (_ & Ht & Hk & H1 & H2). cbv zeta in * . change (Z.to_nat 1) with 1%nat in * .
    rewrite Rmin_left in Ht, H2 by lra. set (ts := bo_t_vals sol) in * . set (N := length ts) in * .
    assert (EN : N = 3%nat).
    { destruct N as [|[|[|[|N4]]]]; [lia| | |reflexivity|].
      - rewrite Ht in H1 by lia. simpl in H1. lra.
      - rewrite Ht in H1 by lia. simpl in H1. lra.
      - destruct H2 as [H2|H2]; [discriminate|]. rewrite Ht in H2 by lia. replace (S (S (S (S N4))) - 1)%nat with (S (S (S N4))) in H2 by lia. rewrite !S_INR in H2. pose proof (pos_INR N4). lra. }
    assert (E0 : nth 0 ts 0 = 0) by (rewrite Ht by lia; simpl; lra). assert (E1 : nth 1 ts 0 = 2 / 3) by (rewrite Ht by lia; simpl; lra). assert (E2 : nth 2 ts 0 = 4 / 3) by (rewrite Ht by lia; simpl; lra).
    unfold N in EN. destruct ts as [|a [|b [|c [|d l]]]]; try discriminate. simpl in E0, E1, E2. congruence.
  Qed.
End Reals.
