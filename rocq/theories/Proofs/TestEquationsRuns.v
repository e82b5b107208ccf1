(** Conservation laws along the runs of the solvers; functor::compute. *)
From Coq Require Import Reals Lra Lia.
From Verif Require Import Model.Base Model.Scalar Model.LinAlg Model.Options Model.Erk Model.Irk Model.Multistep Model.TestEquations.
From Verif Require Import Spec.Sums Spec.Observe Spec.JacobianSpec Spec.TestEquationsSpec Spec.MultistepSpec.
From Verif Require Import Proofs.SumsProofs Proofs.TestEquationsProofs Proofs.ErkExact Proofs.MultistepResults.
Local Open Scope R_scope.

Section Runs.
  Context {St : Type}.

  Definition value_of (r : R -> list R -> res (list R)) (t : R) (y : list R) : list R := match r t y with Ok v => v | Err _ => [] end.
  Lemma stateless_computes : forall (F : functor R St) r, stateless_fun F r -> computes F (value_of r).
  Proof. intros F r H t y s v E. rewrite H in E. simpl in E. unfold value_of. rewrite E. reflexivity. Qed.
  Lemma stateless_conserves : forall n (F : functor R St) r wt (s0 : St), stateless_fun F r -> conserves n F wt ->
    (forall t y, length y = n -> exists v, r t y = Ok v) ->
    forall t y, length y = n -> Rsum n (fun q => wt q * ventry (value_of r t y) q) = 0.
  Proof.
    intros n F r wt s0 H HC Ht t y Hy. destruct (Ht t y Hy) as (v & E).
    unfold value_of. rewrite E. apply (HC t y s0 s0 v Hy). rewrite H, E. reflexivity.
  Qed.

  (** the equations are stateless *)
  Definition answers (F : functor R unit) (t : R) (y : list R) : res (list R) := snd (f_fun F t y tt).
  Ltac stateless := let t := fresh in let y := fresh in let s := fresh in intros t y s; destruct y as [|? [|? [|? [|? ?]]]]; reflexivity.
  Lemma rober_stateless : stateless_fun (@rober R _ St) (answers rober).
  Proof. stateless. Qed.
  Lemma dimer_stateless : forall rate, stateless_fun (@dimer R _ St rate) (answers (dimer rate)).
  Proof. intro rate. stateless. Qed.
  Lemma kinetic_stateless : forall b2 b3 b4, stateless_fun (@kinetic_4 R _ St b2 b3 b4) (answers (kinetic_4 b2 b3 b4)).
  Proof. intros b2 b3 b4. stateless. Qed.

  Lemma erk_keeps : forall (HE : Env R) (LA : LinAlg R) (HP : ExactProducts LA) n (F : functor R St) r wt,
    stateless_fun F r -> conserves n F wt -> (forall t y, length y = n -> exists v, r t y = Ok v) ->
    forall fuel t0 t1 y0 opts oo m dt w w' sol, length y0 = n -> erk_odeint fuel F t0 t1 y0 opts oo m dt w = (w', Ok sol) ->
    forall k, (k < length (eo_y_vals sol))%nat ->
    Rsum n (fun q => wt q * ventry (nth k (eo_y_vals sol) []) q) = Rsum n (fun q => wt q * ventry y0 q).
  Proof.
    intros HE LA HP n F r wt H HC Ht fuel t0 t1 y0 opts oo m dt w w' sol Hn E k Hk. subst n.
    eapply erk_invariant; [apply (stateless_computes F r H)|exact E| |exact Hk].
    intros t y Hy. destruct w as [ws wf]. exact (stateless_conserves _ F r wt ws H HC Ht t y Hy).
  Qed.
  Lemma ab_keeps : forall (HE : Env R) (LA : LinAlg R) n (F : functor R St) r wt,
    stateless_fun F r -> conserves n F wt -> (forall t y, length y = n -> exists v, r t y = Ok v) ->
    forall fuel t0 t1 y0 order dt w w' sol, length y0 = n -> (order <= 5)%Z -> adams_bashforth fuel F t0 t1 y0 order dt w = (w', Ok sol) ->
    forall k, (k < length (bo_y_vals sol))%nat ->
    Rsum n (fun q => wt q * ventry (nth k (bo_y_vals sol) []) q) = Rsum n (fun q => wt q * ventry y0 q).
  Proof.
    intros HE LA n F r wt H HC Ht fuel t0 t1 y0 order dt w w' sol Hn Ho E k Hk. subst n.
    refine (ab_invariant F (value_of r) (stateless_computes F r H) fuel t0 t1 y0 order dt w w' sol E Ho wt _ k Hk).
    intros t y Hy. destruct w as [ws wf]. exact (stateless_conserves _ F r wt ws H HC Ht t y Hy).
  Qed.

  Ltac returns := let t := fresh in let y := fresh "y" in let H := fresh "H" in intros t y H; openv y H; eexists; reflexivity.
  Lemma rober_returns : forall t y, length y = 3%nat -> exists v, answers rober t y = Ok v.
  Proof. returns. Qed.
  Lemma dimer_returns : forall rate t y, length y = 2%nat -> exists v, answers (dimer rate) t y = Ok v.
  Proof. intro rate. returns. Qed.
  Lemma kinetic_returns : forall b2 b3 b4 t y, length y = 4%nat -> exists v, answers (kinetic_4 b2 b3 b4) t y = Ok v.
  Proof. intros b2 b3 b4. returns. Qed.

  Lemma erk_keeps_all : forall (HE : Env R) (LA : LinAlg R) (HP : ExactProducts LA),
    let keeps n (F : functor R St) (wt : nat -> R) :=
      forall fuel t0 t1 y0 opts oo m dt w w' sol, length y0 = n -> erk_odeint fuel F t0 t1 y0 opts oo m dt w = (w', Ok sol) ->
      forall k, (k < length (eo_y_vals sol))%nat ->
      Rsum n (fun q => wt q * ventry (nth k (eo_y_vals sol) []) q) = Rsum n (fun q => wt q * ventry y0 q) in
    keeps 3%nat rober (fun _ => 1) /\
    (forall rate, rate <> 0 -> keeps 2%nat (dimer rate) (fun q => INR (q + 1))) /\
    (forall b2 b3 b4, keeps 4%nat (kinetic_4 b2 b3 b4) (fun q => INR (q + 1))).
  Proof.
    intros HE LA HP keeps. split; [|split].
    - exact (erk_keeps HE LA HP 3 rober _ _ rober_stateless rober_conserves rober_returns).
    - intros rate Hr. exact (erk_keeps HE LA HP 2 _ _ _ (dimer_stateless rate) (dimer_conserves rate Hr) (dimer_returns rate)).
    - intros b2 b3 b4. exact (erk_keeps HE LA HP 4 _ _ _ (kinetic_stateless b2 b3 b4) (kinetic_conserves b2 b3 b4) (kinetic_returns b2 b3 b4)).
  Qed.
  Lemma ab_keeps_all : forall (HE : Env R) (LA : LinAlg R),
    let keeps n (F : functor R St) (wt : nat -> R) :=
      forall fuel t0 t1 y0 order dt w w' sol, length y0 = n -> (order <= 5)%Z -> adams_bashforth fuel F t0 t1 y0 order dt w = (w', Ok sol) ->
      forall k, (k < length (bo_y_vals sol))%nat ->
      Rsum n (fun q => wt q * ventry (nth k (bo_y_vals sol) []) q) = Rsum n (fun q => wt q * ventry y0 q) in
    keeps 3%nat rober (fun _ => 1) /\
    (forall rate, rate <> 0 -> keeps 2%nat (dimer rate) (fun q => INR (q + 1))) /\
    (forall b2 b3 b4, keeps 4%nat (kinetic_4 b2 b3 b4) (fun q => INR (q + 1))).
  Proof.
    intros HE LA keeps. split; [|split].
    - exact (ab_keeps HE LA 3 rober _ _ rober_stateless rober_conserves rober_returns).
    - intros rate Hr. exact (ab_keeps HE LA 2 _ _ _ (dimer_stateless rate) (dimer_conserves rate Hr) (dimer_returns rate)).
    - intros b2 b3 b4. exact (ab_keeps HE LA 4 _ _ _ (kinetic_stateless b2 b3 b4) (kinetic_conserves b2 b3 b4) (kinetic_returns b2 b3 b4)).
  Qed.
  Lemma rober_returns_dim : returns_dim (@rober R _ St) 3.
  Proof. intros t y s H. openv y H. eexists _, _. split; reflexivity. Qed.
End Runs.

(** functor::compute *)
Lemma compute_spec : forall {T St} (F : functor T St) f Jf, (forall t y s, f_fun F t y s = (s, Ok (f t y))) -> (forall t y s, f_jac F t y s = (s, Ok (Jf t y))) ->
  forall t y J calc_J s, compute F t y J calc_J s = (s, Ok (f t y, if calc_J then Jf t y else J)).
Proof. intros T St F f Jf Hf HJ t y J b s. unfold compute, bind, ret. destruct b; [rewrite HJ|]; rewrite Hf; reflexivity. Qed.
Lemma compute_calls : forall {T St} (F : functor T St) t y J calc_J s l s' v,
  compute (logged F) t y J calc_J (s, l) = (s', Ok v) -> snd s' = l ++ (if calc_J then [CallJac t y; CallFun t y] else [CallFun t y]).
Proof.
  intros T St F t y J b s l s' v E. unfold compute, bind, ret in E. destruct b; cbn in E.
  - destruct (f_jac F t y s) as [s1 [J1|e1]]; cbn in E; [|discriminate E].
    destruct (f_fun F t y s1) as [s2 [v2|e2]]; cbn in E; [|discriminate E]. injection E as <- _. cbn. rewrite <- app_assoc. reflexivity.
  - destruct (f_fun F t y s) as [s2 [v2|e2]]; cbn in E; [|discriminate E]. injection E as <- _. reflexivity.
Qed.
