(** Concrete runs beside C115-C117. *)
From Coq Require Import Reals Lra.
From Verif Require Import Model.Base Model.Scalar Model.LinAlg Model.Newton Model.Enums Model.Options Model.Coeffs Model.ErkCoeffs Model.Erk Model.Irk Model.Multistep.
From Verif Require Import Spec.Observe Spec.NewtonSpec Spec.Shift Spec.Determinism Proofs.ErkExamples Proofs.IrkExamples Proofs.MultistepExamples Proofs.NewtonExamples Proofs.LockstepFinal.
From Verif Require Import Spec.IrkSpec Proofs.ChoiceInstance Proofs.ChoiceLU Proofs.IrkTotalExamples.

Section F64.
  Local Open Scope sc_scope.
  #[local] Existing Instance ex_S.
  (** uninitialised memory holds [j] everywhere, and the clock shows [c] *)
  Definition de_E (nd : bool) (j c : f64) : Env f64 := {| ndebug := nd; junk := j; clock := c |}.
  Definition de_erk (j c : f64) :=
    @erk_odeint f64 ex_S ex_LA (de_E false j c) _ 50 ex_osc (sZ 0) (sZ 1) [sZ 1; sZ 0] (ex_opts true (-1)) ex_file CASH_KARP_54 (slit 5 (-1)) (World tt []).
  (** (status, number of recorded times, the stages recorded with the initial value: are they below 1/2?) *)
  Definition de_first {W} (r : W * res (erk_output f64)) : option (Z * nat * list bool) :=
    match snd r with Ok s => Some (eo_status s, length (eo_t_vals s), map (fun x => x <?. slit 5 (-1)) (hd [] (eo_stages s))) | _ => None end.
  Lemma de_erk0 : de_first (de_erk (sZ 0) (sZ 1)) = Some (SUCCESS, 14%nat, repeat true 12).
  Proof. vm_compute. reflexivity. Qed.
  Lemma de_erk1 : de_first (de_erk (sZ 1) (sZ 7)) = Some (SUCCESS, 14%nat, repeat false 12).
  Proof. vm_compute. reflexivity. Qed.
  (** the runs [ex_success], [ig_runs], [mg_ab_runs] and [mg_bdf_runs] with other memory and another clock *)
  Definition de_run1 (E : Env f64) :=
    @erk_odeint f64 ex_S ex_LA E _ 50 (logged ex_osc) (sZ 0) (sZ 1) [sZ 1; sZ 0] (ex_opts true (-1)) ex_file CASH_KARP_54 (slit 5 (-1)) (World (tt, []) []).
  Definition de_run2 (E : Env f64) :=
    @irk_odeint f64 ex_S ig_LA E _ 60 (logged ig_vdp) (sZ 0) (sZ 1) [sZ 1; sZ 1] (ig_opts true (-1) 5 1) (ig_both 1) RADAU_IIA_53 (slit 5 (-1)) (World (tt, []) []).
  Lemma de_summary1 (p q : world f64 (unit * list (call f64)) * res (erk_output f64)) : same_outcome erk_agree p q -> ex_summary q = ex_summary p.
  Proof.
    destruct p as [w1 [a|e1]], q as [w2 [b|e2]]; intros (H1 & H2); simpl in H1, H2; try contradiction; [|reflexivity]. subst w2.
    destruct H2 as (S1 & S2 & S3 & S4 & S5 & S6 & S7 & S8 & S9 & S10 & S11). unfold ex_summary. rewrite S1, S2, S9, S10, S11. reflexivity.
  Qed.
  Lemma de_summary2 (p q : world f64 (unit * list (call f64)) * res (irk_output f64)) : same_outcome irk_agree p q -> ig_summary q = ig_summary p.
  Proof.
    destruct p as [w1 [a|e1]], q as [w2 [b|e2]]; intros (H1 & H2); simpl in H1, H2; try contradiction; [|reflexivity]. subst w2.
    destruct H2 as (S1 & S2 & S3 & S4 & S5 & S6 & S7 & S8). unfold ig_summary. rewrite S1, S2, S8. reflexivity.
  Qed.
  Lemma de_summary3 {W} (p q : W * res (basic_output f64)) : same_outcome eq p q -> mg_summary q = mg_summary p.
  Proof.
    destruct p as [w1 [a|e1]], q as [w2 [b|e2]]; intros (H1 & H2); simpl in H1, H2; try contradiction; [|reflexivity]. subst b. reflexivity.
  Qed.
  Lemma de_first_run j c : ex_summary (de_run1 (de_E false j c)) = Some (SUCCESS, 19, 6, 114, 14, 19)%nat.
  Proof. rewrite <- ex_success. apply de_summary1. exact (@same_erk f64 ex_S ex_LA (ex_E false) (de_E false j c) _ (logged ex_osc) eq_refl _ _ _ _ _ _ _ _ _). Qed.
  Lemma de_second_run j c : ig_summary (de_run2 (de_E false j c)) = Some (SUCCESS, 13, 8, 0, 198, 59, 6, 5)%nat.
  Proof. rewrite <- (proj1 ig_runs). apply de_summary2. exact (@same_irk f64 ex_S ig_LA (ex_E false) (de_E false j c) _ (logged ig_vdp) eq_refl _ _ _ _ _ _ _ _ _). Qed.
  (** the same explicit run in a release build *)
  Lemma de_noabort1 (r : world f64 (unit * list (call f64)) * res (erk_output f64)) x : ex_summary r = Some x -> snd r <> Err EAbort.
  Proof. destruct r as [w [a|e]]; discriminate. Qed.
  Lemma de_noabort3 {W} (r : W * res (basic_output f64)) x : mg_summary r = Some x -> snd r <> Err EAbort.
  Proof. destruct r as [w [a|e]]; discriminate. Qed.
  Lemma de_rel1 (E1 E2 : Env f64) x : @ndebug f64 E1 = false -> @ndebug f64 E2 = true ->
    ex_summary (de_run1 E1) = Some x -> ex_summary (de_run1 E2) = Some x.
  Proof.
    unfold de_run1. generalize (World (T := f64) (tt, @nil (call f64)) []), (slit (T := f64) 5 (-1)), (sZ (T := f64) 0), (sZ (T := f64) 1), (ex_opts true (-1)).
    intros w dt a b o H1 H2 Hx. rewrite <- Hx. apply de_summary1, release_same_erk; [exact H1|exact H2|]. eapply de_noabort1, Hx.
  Qed.
  Lemma de_run1_ok : ex_summary (de_run1 (ex_E false)) = Some (SUCCESS, 19, 6, 114, 14, 19)%nat.
  Proof. vm_compute. reflexivity. Qed.
  Lemma de_release j c : ex_summary (de_run1 (de_E true j c)) = Some (SUCCESS, 19, 6, 114, 14, 19)%nat.
  Proof. exact (de_rel1 (ex_E false) (de_E true j c) _ eq_refl eq_refl de_run1_ok). Qed.
End F64.
Section F64m.
  #[local] Existing Instance mg_S.
  Local Open Scope sc_scope.
  Definition de_run3 (E : Env f64) := @adams_bashforth f64 mg_S mg_LA E _ 60 mg_sq (sZ 0) (slit 1 (-5)) [sZ 1] 3 mg_dt (World tt []).
  Definition de_run4 (E : Env f64) := @bdf f64 mg_S mg_LA E _ 60 mg_sq (sZ 0) (slit 1 (-5)) [sZ 1] 2 mg_dt (World tt []).
  Definition de_run5 (E : Env f64) := @adams_bashforth f64 mg_S mg_LA E _ 60 mg_sq (sZ 0) (slit 1 (-5)) [sZ 1] 1 mg_dt (World tt []).
  Lemma de_third_run j c : mg_summary (de_run3 (de_E false j c)) = Some (SUCCESS, 7, 7)%nat.
  Proof. rewrite <- (proj2 mg_ab_runs). apply de_summary3. exact (@same_ab f64 mg_S mg_LA (ex_E false) (de_E false j c) _ mg_sq eq_refl _ _ _ _ _ _ _). Qed.
  Lemma de_fourth_run j c : mg_summary (de_run4 (de_E false j c)) = Some (SUCCESS, 7, 7)%nat.
  Proof. rewrite <- (proj1 mg_bdf_runs). apply de_summary3. exact (@same_bdf f64 mg_S mg_LA (ex_E false) (de_E false j c) _ mg_sq eq_refl _ _ _ _ _ _ _). Qed.
  Lemma de_rel3 (E1 E2 : Env f64) x : @ndebug f64 E1 = false -> @ndebug f64 E2 = true ->
    mg_summary (de_run5 E1) = Some x -> mg_summary (de_run5 E2) = Some x.
  Proof.
    unfold de_run5. generalize (sZ (T := f64) 0), (slit (T := f64) 1 (-5)), [sZ (T := f64) 1], mg_dt.
    intros a b y dt H1 H2 Hx. rewrite <- Hx. apply de_summary3, release_same_ab; [exact H1|exact H2|]. eapply de_noabort3, Hx.
  Qed.
  Lemma de_run5_ok : mg_summary (de_run5 (ex_E false)) = Some (SUCCESS, 7, 7)%nat.
  Proof. vm_compute. reflexivity. Qed.
  Lemma de_release_ab j c : mg_summary (de_run5 (de_E true j c)) = Some (SUCCESS, 7, 7)%nat.
  Proof. exact (de_rel3 (ex_E false) (de_E true j c) _ eq_refl eq_refl de_run5_ok). Qed.
End F64m.

(** runs shifted in time *)
Section Reals.
  Local Open Scope R_scope.
  Definition de_g (s t : R) : R := cos (t - s).
  Lemma de_bounded s t : Rabs (de_g s (t + s)) <= 1.
  Proof. unfold de_g. apply Rabs_le. apply COS_bound. Qed.
  Lemma de_shifted s : shift_functor s (it_F (de_g s)) = it_F (fun t => de_g s (t + s)).
  Proof. reflexivity. Qed.
  (** y' = (cos(t - s), - cos(t - s)) from s to s + 2 *)
  Lemma de_irk_shift s m : In m implicit_runnable -> exists fuel w' sol,
    @irk_odeint R RScalar choice_LA it_E unit fuel (it_F (de_g s)) (0 + s) (2 + s) [1; 2] (it_opts 1000) output_options_default m (1 / 10) (World tt []) = (w', Ok sol).
  Proof.
    intros Hm. destruct (it_run _ (de_bounded s) m [1; 2] Hm eq_refl) as (fuel & w' & sol & E). exists fuel.
    pose proof (irk_shift (E := it_E) (LA := choice_LA) s (it_F (de_g s)) fuel 0 2 [1; 2] (it_opts 1000) output_options_default m (1 / 10) tt) as H.
    rewrite de_shifted, E in H. destruct (irk_odeint fuel (it_F (de_g s)) (0 + s) (2 + s) [1; 2] (it_opts 1000) output_options_default m (1 / 10) (World tt [])) as [w1 [a|e]]; [|contradiction].
    eauto.
  Qed.
  Lemma de_multistep_shift s : exists h, 0 < h /\
    (forall order, (1 <= order <= 5)%Z -> exists fuel w' sol, @adams_bashforth R RScalar choice_LA it_E unit fuel (it_F (de_g s)) (0 + s) (20 * h + s) [1; 2] order h (World tt []) = (w', Ok sol)) /\
    (forall order, (1 <= order <= 6)%Z -> exists fuel w' sol, @bdf R RScalar choice_LA it_E unit fuel (it_F (de_g s)) (0 + s) (20 * h + s) [1; 2] order h (World tt []) = (w', Ok sol)).
  Proof.
    destruct (it_multistep _ (de_bounded s) [1; 2] eq_refl) as (h & Hh & Ha & Hb). exists h. split; [exact Hh|]. split; intros order Ho.
    - destruct (Ha order Ho) as (fuel & w' & sol & E). exists fuel.
      pose proof (ab_shift (E := it_E) (LA := choice_LA) s (it_F (de_g s)) fuel 0 (20 * h) [1; 2] order h tt) as H. unfold ms_shifted in H.
      rewrite de_shifted, E in H. destruct (adams_bashforth fuel (it_F (de_g s)) (0 + s) _ [1; 2] order h (World tt [])) as [w1 [a|e]]; [|contradiction]. eauto.
    - destruct (Hb order Ho) as (fuel & w' & sol & E). exists fuel.
      pose proof (bdf_shift (E := it_E) (LA := choice_LA) s (it_F (de_g s)) fuel 0 (20 * h) [1; 2] order h tt) as H. unfold ms_shifted in H.
      rewrite de_shifted, E in H. destruct (bdf fuel (it_F (de_g s)) (0 + s) _ [1; 2] order h (World tt [])) as [w1 [a|e]]; [|contradiction]. eauto.
  Qed.
End Reals.
