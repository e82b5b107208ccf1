(** y' = y^2, whose solution from y(0) = 1/2 is 1/(2-t). *)
From Coq Require Import Reals Lra.
From Coquelicot Require Import Coquelicot.
From Verif Require Import Model.Base Model.LinAlg Spec.Sums Spec.ConvergenceSpec Proofs.SumsProofs.
Local Open Scope R_scope.

Definition sq_f (t : R) (y : list R) : list R := map (fun x => x * x) y.
Definition sq_phi (t : R) : list R := [/ (2 - t)].
Definition sq_df (l : list nat) (x : nat -> R) (q : nat) : R :=
  match l with
  | [] => x 1%nat * x 1%nat
  | [1%nat] => 2 * x 1%nat
  | [1%nat; 1%nat] => 2
  | _ => 0
  end.

Lemma sq_solves : solves 1 sq_f 0 1 sq_phi.
Proof.
  split; [reflexivity|]. intros t i Ht Hi. assert (i = 0%nat) as -> by lia. unfold ventry. cbn [sq_phi sq_f map nth].
  apply is_derive_Reals. auto_derive; [lra|]. field. lra.
Qed.

Lemma sq_smooth p : smooth_near p 1 1 0 1 sq_f sq_phi.
Proof.
  exists 4, sq_df. split; [|split].
  - intros x q Hq. assert (q = 0%nat) as -> by lia. reflexivity.
  - intros l x v s q _ _ _. apply is_derive_Reals.
    change (Rsum 2 (fun j => v j * sq_df (j :: l) (fun i => x i + s * v i) q)) with (0 + v 0%nat * sq_df (0%nat :: l) (fun i => x i + s * v i) q + v 1%nat * sq_df (1%nat :: l) (fun i => x i + s * v i) q).
    destruct l as [|[|[|i]] [|[|[|j]] l]]; cbn [sq_df]; auto_derive; try exact I; try ring; destruct l; ring.
  - intros l x q _ Hq (t & Ht & _ & Hx). specialize (Hx 0%nat ltac:(lia)). unfold ventry in Hx. cbn [sq_phi nth] in Hx.
    assert (B1 : 0 < / (2 - t) <= 1). { split; [apply Rinv_0_lt_compat; lra|]. rewrite <- Rinv_1. apply Rinv_le_contravar; lra. }
    assert (B2 : -1 <= x 1%nat <= 2). { apply Rabs_le_between in Hx. lra. }
    assert (B3 : Rabs (x 1%nat) <= 2) by (apply Rabs_le; lra). apply Rabs_le.
    destruct l as [|[|[|i]] [|[|[|j]] [|k l]]]; cbn [sq_df]; try lra. nra.
Qed.

(** y' = cos t, y(0) = 0 *)
Definition cos_f (t : R) (y : list R) : list R := [cos t].
Definition cos_phi (t : R) : list R := [sin t].
Fixpoint cos_df (l : list nat) (k : nat) (x : nat -> R) : R :=
  match l with
  | [] => match (k mod 4)%nat with 0%nat => cos (x 0%nat) | 1%nat => - sin (x 0%nat) | 2%nat => - cos (x 0%nat) | _ => sin (x 0%nat) end
  | O :: l => cos_df l (S k) x
  | _ => 0
  end.
Lemma cos_solves : solves 1 cos_f 0 1 cos_phi.
Proof.
  split; [reflexivity|]. intros t i Ht Hi. assert (i = 0%nat) as -> by lia. unfold ventry. cbn [cos_phi cos_f nth]. apply is_derive_Reals. auto_derive; [exact I|ring].
Qed.
Lemma cos_df_bound l k x : Rabs (cos_df l k x) <= 1.
Proof.
  revert k. induction l as [|[|i] l IH]; intros k; cbn [cos_df]; [|apply IH|rewrite Rabs_R0; lra].
  pose proof (COS_bound (x 0%nat)). pose proof (SIN_bound (x 0%nat)). destruct (k mod 4)%nat as [|[|[|j]]]; apply Rabs_le; lra.
Qed.
Lemma mod4 k : (S k mod 4 = match k mod 4 with 0 => 1 | 1 => 2 | 2 => 3 | _ => 0 end)%nat.
Proof.
  pose proof (Nat.mod_upper_bound k 4 ltac:(lia)) as B. change (S k) with (1 + k)%nat. rewrite Nat.add_mod by lia.
  destruct (k mod 4)%nat as [|[|[|[|j]]]]; try lia; reflexivity.
Qed.
Lemma cos_df_derive l k x v s : is_derive (fun s => cos_df l k (fun i => x i + s * v i)) s (v 0%nat * cos_df l (S k) (fun i => x i + s * v i)).
Proof.
  revert k. induction l as [|[|i] l IH]; intros k; cbn [cos_df]; [|apply IH|auto_derive; [exact I|ring]].
  rewrite mod4. destruct (k mod 4)%nat as [|[|[|j]]]; auto_derive; try exact I; ring.
Qed.
Lemma cos_smooth p : smooth_near p 1 1 0 1 cos_f cos_phi.
Proof.
  exists 1, (fun l x q => cos_df l 0 x). split; [|split].
  - intros x q Hq. assert (q = 0%nat) as -> by lia. reflexivity.
  - intros l x v s q _ _ _. apply is_derive_Reals.
    change (Rsum 2 (fun j => v j * cos_df (j :: l) 0 (fun i => x i + s * v i))) with (0 + v 0%nat * cos_df l 1 (fun i => x i + s * v i) + v 1%nat * 0).
    replace (0 + v 0%nat * cos_df l 1 (fun i => x i + s * v i) + v 1%nat * 0) with (v 0%nat * cos_df l 1 (fun i => x i + s * v i)) by ring. apply cos_df_derive.
  - intros l x q _ _ _. apply cos_df_bound.
Qed.

From Verif Require Import Model.Scalar Model.Enums Model.Options Model.Erk Spec.Observe Spec.Methods Proofs.ExactInstance Proofs.ErkBounded Proofs.ErkExamples Proofs.ErkFinal Proofs.ConvergenceErk.
Lemma cos_limited m h : In m explicit_embedded -> 0 < h -> exists fuel w' sol,
  @erk_odeint R RScalar exact_LA (exr_E false) _ fuel (exr_fun cos_f) 0 1 (cos_phi 0) (ErkOptions true (1 / 10) (1 / 10) h (-1)) output_options_default m h (World tt []) = (w', Ok sol) /\
  steps_at_most h (eo_t_vals sol).
Proof.
  intros Hm Hh.
  assert (HB : forall t (y : list R) q, length y = 1%nat -> Rabs (ventry (cos_f t y) q) <= 1) by (intros t y q Hy; apply (proj2 (proj2 cos_bounded)) with (y := y); exact Hy).
  assert (H : exists fuel w' sol, @erk_odeint R RScalar exact_LA (exr_E false) _ fuel (exr_fun cos_f) 0 1 (cos_phi 0) (ErkOptions true (1 / 10) (1 / 10) h (-1)) output_options_default m h (World tt []) = (w', Ok sol)).
  { apply (erk_bounded_halts (X := exact_LA_products) (exr_fun cos_f) cos_f) with (B := 1); simpl; auto; try lra; try discriminate; [apply exr_total|intros t y _; reflexivity]. }
  destruct H as (fuel & w' & sol & Hr). exists fuel, w', sol. split; [exact Hr|].
  eapply (erk_limited_steps (HE := exr_E false) (HL := exact_LA)); [left; reflexivity|exact Hr| | | |]; simpl; auto; lra.
Qed.
