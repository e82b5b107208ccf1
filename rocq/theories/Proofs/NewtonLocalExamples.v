(** A system that meets the hypotheses of C114: x^2 = y, y = 1, near (1,1). *)
From Coq Require Import Reals Lra Psatz.
From Coquelicot Require Import Coquelicot.
From Verif Require Import Model.Base Model.Scalar Model.LinAlg Model.Newton Spec.Sums Spec.NewtonSpec Spec.NewtonLocalSpec
  Proofs.SumsProofs Proofs.RVec.
Local Open Scope R_scope.

Definition nl_f (x : list R) : list R := [ventry x 0 * ventry x 0 - ventry x 1; ventry x 1 - 1].
Definition nl_J (x : list R) : mat R :=
  mtab 2 2 (fun i j => match i, j with O, O => 2 * ventry x 0 | O, S _ => -1 | S _, O => 0 | S _, S _ => 1 end).
Definition nl_B (x : list R) : mat R :=
  mtab 2 2 (fun i j => match i, j with O, _ => / (2 * ventry x 0) | S _, O => 0 | S _, S _ => 1 end).
Definition nl_F : nfunctor R unit := pure_system nl_f nl_J.

Lemma nl_answers : answers nl_F 2 nl_f nl_J.
Proof.
  split; intros x s Hx; exists s; (split; [reflexivity|]); [reflexivity|].
  split; [apply mtab_wf|split; reflexivity].
Qed.
Lemma nl_near x : near (1 / 16) [1; 1] x -> exists a b, x = [a; b] /\ 15 / 16 <= a <= 17 / 16.
Proof.
  intros [H1 H2]. destruct x as [|a [|b [|]]]; try discriminate. exists a, b. split; [reflexivity|].
  specialize (H2 0%nat ltac:(simpl; lia)). unfold ventry in H2. simpl in H2. apply Rabs_le_between in H2. lra.
Qed.
Lemma nl_regular : regular_root nl_f nl_J [1; 1] (1 / 16) 2 2 4.
Proof.
  constructor.
  - lra.
  - intros i Hi. destruct i as [|[|i]]; [| |simpl in Hi; lia]; unfold ventry, nl_f; simpl; unfold ventry; simpl; ring.
  - intros x i s Hx Hi _. destruct i as [|[|i]]; [| |simpl in Hi; lia]; unfold nl_f, nl_J, between, ventry; cbn -[Rmult Rplus Rminus];
      unfold ventry, mentry; cbn -[Rmult Rplus Rminus]; auto_derive; try exact I; unfold ventry; simpl; ring.
  - intros x i Hx Hi. destruct (nl_near x Hx) as (a & b & -> & Ha).
    destruct i as [|[|i]]; [| |simpl in Hi; lia]; unfold nl_J; cbn [Rsum length]; rewrite !mentry_vt by lia; unfold ventry; simpl.
    + rewrite Rabs_pos_eq by lra. rewrite Rabs_left by lra. lra.
    + rewrite Rabs_R0, Rabs_pos_eq by lra. lra.
  - intros x y d i Hx Hy [_ Hd] Hi. destruct (nl_near x Hx) as (a & b & -> & Ha). destruct (nl_near y Hy) as (a' & b' & -> & Ha').
    specialize (Hd 0%nat ltac:(simpl; lia)). unfold ventry in Hd. simpl in Hd.
    destruct i as [|[|i]]; [| |simpl in Hi; lia]; unfold nl_J; cbn [Rsum length]; rewrite !mentry_vt by lia; unfold ventry; simpl.
    + replace (2 * a - 2 * a') with (- (2 * (a' - a))) by ring. rewrite Rabs_Ropp, Rabs_mult, (Rabs_pos_eq 2) by lra. replace (-1 - -1) with 0 by ring. rewrite Rabs_R0. lra.
    + pose proof (Rabs_pos (a' - a)). rewrite !Rminus_eq_0, Rabs_R0. lra.
  - intros x Hx. destruct (nl_near x Hx) as (a & b & -> & Ha). exists (nl_B [a; b]). split.
    + split; [reflexivity|]. split; [reflexivity|]. split; [reflexivity|]. intros i j Hi Hj. unfold nl_J, nl_B in * . rewrite mtab_nrows in * .
      cbn [Rsum]. rewrite !mentry_vt by lia. unfold ventry, delta.
      destruct i as [|[|i]]; [| |lia]; (destruct j as [|[|j]]; [| |lia]); simpl; split; field; lra.
    + intros i Hi. assert (Hi0 : 0 < / (2 * a) <= 1).
      { split; [apply Rinv_0_lt_compat; lra|]. rewrite <- Rinv_1. apply Rinv_le_contravar; lra. }
      destruct i as [|[|i]]; [| |simpl in Hi; lia]; unfold nl_B; cbn [Rsum length]; rewrite !mentry_vt by lia; unfold ventry; simpl.
      * rewrite Rabs_pos_eq by lra. lra.
      * rewrite Rabs_R0, Rabs_pos_eq by lra. lra.
Qed.
(** the contraction factor, with the damping: 1/2 + 1/8 *)
Lemma nl_factor (limit : bool) : 2 * 2 * 2 * (1 / 16) + (if limit then INR 2 * ((4 * (1 / 16)) * (4 * (1 / 16))) else 0) < 1.
Proof. destruct limit; simpl; lra. Qed.
(** after five steps with fresh Jacobians the guess is so close that the sixth is accepted at 10^-6 *)
Lemma nl_five : 2 * (1 / 16 * (1 / 2 + 1 / 8) ^ (2 ^ 5 - 1)) < 1 / 10 ^ 6.
Proof. simpl Nat.sub. lra. Qed.
Lemma nl_start : near (1 / 16) [1; 1] [17 / 16; 31 / 32].
Proof. split; [reflexivity|]. intros i Hi. destruct i as [|[|i]]; [| |simpl in Hi; lia]; unfold ventry; simpl; apply Rabs_le; lra. Qed.
