(** Rounding and NaN in the explicit integrator (C20, C30). *)
From Flocq Require Import IEEE754.BinarySingleNaN.
From Verif Require Import Model.Base Model.Scalar Model.LinAlg Model.Enums Model.Options Model.Coeffs Model.ErkCoeffs Model.Erk.
From Verif Require Import Spec.Observe Spec.ErkSpec Spec.Methods.
From Verif Require Import Proofs.LoopProofs Proofs.OrderProofs Proofs.TablesGeneric Proofs.CoeffsProofs Proofs.ErkCoeffsProofs Proofs.ErkProofs Proofs.ErkRun Proofs.ErkGeneric Proofs.ErkTotal Proofs.ErkTimes.
Local Open Scope sc_scope.

Section Fixed.
  Context {T : Type} `{Scalar T} `{LinAlg T} `{Env T} {St : Type}.
  Variables (F : functor T St) (fuel : nat) (t0 t1 : T) (y0 : list T) (opts : erk_options T) (oo : output_options) (m : Z) (dt : T).
  Hypothesis Hfix : eo_adaptive opts = false.
  Hypothesis Hms : (eo_max_steps opts < 0)%Z.
  Hypothesis Hlt : (t0 <?. t1) = true.

  Lemma eff_fix sc : eo_adaptive (eff_opts opts sc) = false.
  Proof. unfold eff_opts. rewrite Hfix. exact Hfix. Qed.

  Lemma erk_never_advances w w' sol : (t1 <?. t0 +. dt) = false -> t0 +. dt = t0 ->
    erk_odeint fuel F t0 t1 y0 opts oo m dt w <> (w', Ok sol).
  Proof.
    intros Hnc Hadd Hrun.
    destruct (erk_odeint_finished F false (fun _ => []) (fun _ _ _ => eq_refl) _ _ _ _ _ _ _ _ _ _ _ Hrun) as (_ & sc & a & b & _ & _ & _ & _ & _ & atts & O & A & _ & _ & En).
    pose proof (eff_fix sc) as Ef. destruct A as [A1 A2 A3 A4 A5 A6].
    assert (Hk : forall k, (k <= length atts)%nat -> time_after t0 (firstn k atts) = t0 /\ dt_after t0 t1 (eff_opts opts sc) (Z.min a b mod 2 ^ 64) dt (firstn k atts) = dt).
    { induction k as [|k IH]; intros Hk.
      - split; [reflexivity|]. unfold dt_after. simpl. unfold clip. rewrite Hnc. reflexivity.
      - destruct (nth_error atts k) as [x|] eqn:Ek. 2:{ apply nth_error_None in Ek. lia. }
        destruct (IH ltac:(lia)) as [I1 I2]. rewrite (firstn_S _ _ _ Ek), time_after_snoc.
        assert (Hx : at_dt x = dt).
        { rewrite (A2 k x Ek), I2, (A1 k x Ek), I1. unfold clip. rewrite Hnc. reflexivity. }
        split.
        + destruct (at_ok x); [|exact I1]. unfold at_end. rewrite Hx, (A1 k x Ek), I1. exact Hadd.
        + unfold dt_after. rewrite fold_left_app. simpl. unfold next_dt. rewrite Ef. exact Hx. }
    destruct (Hk _ (le_n _)) as [I1 _]. rewrite firstn_all in I1.
    destruct En as [(_ & _ & _ & _ & E5)|(_ & _ & _ & _ & E5 & _)]; [rewrite I1 in E5; congruence|rewrite eff_max_steps in E5; lia].
  Qed.

  Lemma erk_one_step w w' sol : (t0 +. clip t1 t0 dt <?. t1) = false ->
    clip t1 t0 (clip t1 t0 dt) = clip t1 t0 dt ->
    erk_odeint fuel F t0 t1 y0 opts oo m dt w = (w', Ok sol) ->
    eo_status sol = SUCCESS /\ eo_t_vals sol = [t0; t0 +. clip t1 t0 dt].
  Proof.
    intros Hend Hcl Hrun.
    destruct (erk_odeint_finished F false (fun _ => []) (fun _ _ _ => eq_refl) _ _ _ _ _ _ _ _ _ _ _ Hrun) as (_ & sc & a & b & _ & _ & _ & _ & _ & atts & O & A & _ & _ & En).
    pose proof (eff_fix sc) as Ef. destruct A as [A1 A2 A3 A4 A5 A6].
    destruct En as [(E1 & _ & _ & _ & E5)|(_ & _ & _ & _ & E5 & _)]; [|rewrite eff_max_steps in E5; lia].
    split; [exact E1|]. rewrite (ok_t _ _ _ _ _ O). rewrite Ef in A3.
    destruct atts as [|x [|z l]].
    - simpl in E5. congruence.
    - pose proof (A1 0%nat x eq_refl) as Hx. pose proof (A2 0%nat x eq_refl) as Hd. simpl in Hx. unfold dt_after in Hd. simpl in Hd.
      pose proof (Forall_inv A3) as Hok. simpl in Hok. unfold accepted. simpl. rewrite Hok. simpl. unfold at_end. rewrite Hd, Hx, Hcl. reflexivity.
    - exfalso. pose proof (A1 0%nat x eq_refl) as Hx. pose proof (A2 0%nat x eq_refl) as Hd. simpl in Hx. unfold dt_after in Hd. simpl in Hd.
      pose proof (A1 1%nat z eq_refl) as Hz. simpl in Hz. pose proof (Forall_inv A3) as Hok. simpl in Hok. rewrite Hok in Hz. unfold at_end in Hz. rewrite Hd, Hx, Hcl in Hz.
      pose proof (Forall_inv (Forall_inv_tail A4)) as Hb. simpl in Hb. rewrite Hz in Hb. congruence.
  Qed.
End Fixed.
