(** C115-C117, assembled. *)
From Coq Require Import Reals Lra.
From Verif Require Import Model.Base Model.Scalar Model.LinAlg Model.CyclicBuffer Model.Newton Model.Enums Model.Options Model.Coeffs Model.ErkCoeffs Model.Erk
  Model.IrkCoeffs Model.Irk Model.Multistep.
From Verif Require Import Spec.Shift Spec.Determinism Proofs.LoopProofs Proofs.RelProofs Proofs.Lockstep Proofs.Release.

Section Same.
  Context {T : Type} {HS : Scalar T} {HL : LinAlg T} (E1 E2 : Env T) {St : Type} (F : functor T St).
  Hypothesis Hnd : @ndebug T E1 = @ndebug T E2.
  Let id_T := fun t : T => t.
  Lemma shF_id : shF id_T F = F. Proof. destruct F. reflexivity. Qed.
  Lemma wl_refl (w : world T St) : wl (St := St) id_T (w_out w) (w_out w) w w.
  Proof. split; [reflexivity|]. exists []. unfold lines. simpl. rewrite app_nil_r. split; reflexivity. Qed.
  Lemma wl_eq o (w1 w2 : world T St) : wl id_T o o w1 w2 -> w1 = w2.
  Proof.
    intros (H1 & l & H2 & H3). destruct w1 as [s1 l1], w2 as [s2 l2]. cbn [w_st w_out] in * .
    assert (El : lines id_T l = l) by (unfold lines; rewrite (map_ext _ (fun p => p)); [apply map_id|]; intros [a b]; reflexivity). congruence.
  Qed.
  Lemma outcome {A B} (R R' : A -> B -> Prop) (p : M (world T St) A) (q : M (world T St) B) w :
    (forall a b, R a b -> R' a b) -> mrel (wl id_T (w_out w) (w_out w)) R p q -> same_outcome R' (p w) (q w).
  Proof.
    intros HR Hm. specialize (Hm w w (wl_refl w)). unfold same_outcome. destruct (p w) as [w1 [a|e]], (q w) as [w2 [b|e']]; try contradiction;
      destruct Hm as [Hw Hr]; split; simpl; try (eapply wl_eq; exact Hw); auto.
  Qed.
  Lemma same_erk fuel t0 t1 y0 opts oo m dt w :
    same_outcome erk_agree (@erk_odeint T HS HL E1 St fuel F t0 t1 y0 opts oo m dt w) (@erk_odeint T HS HL E2 St fuel F t0 t1 y0 opts oo m dt w).
  Proof.
    eapply outcome; [|rewrite <- shF_id at 2; apply (l_erk E1 E2 id_T F Hnd); reflexivity].
    intros a b (S1 & S2 & S3 & (K1 & K2 & K & Ea & Eb & _) & S5 & S6 & S7 & S8 & S9 & S10). unfold id_T in S2. rewrite map_id in S2.
    unfold erk_agree. rewrite Ea, Eb. repeat split; assumption.
  Qed.
  Lemma same_irk fuel t0 t1 y0 opts oo m dt w :
    same_outcome irk_agree (@irk_odeint T HS HL E1 St fuel F t0 t1 y0 opts oo m dt w) (@irk_odeint T HS HL E2 St fuel F t0 t1 y0 opts oo m dt w).
  Proof.
    eapply outcome; [|rewrite <- shF_id at 2; apply (l_irk E1 E2 id_T F Hnd); reflexivity].
    intros a b (S1 & S2 & S3 & S4 & S5 & S6 & S7 & S8). unfold id_T in S2. rewrite map_id in S2. repeat split; assumption.
  Qed.
  Lemma msol_id (a b : basic_output T) : msol id_T a b -> a = b.
  Proof. intros (S1 & S2 & S3). unfold id_T in S2. rewrite map_id in S2. destruct a, b. cbn in * . congruence. Qed.
  Lemma same_ab fuel t0 t1 y0 order dt w :
    same_outcome eq (@adams_bashforth T HS HL E1 St fuel F t0 t1 y0 order dt w) (@adams_bashforth T HS HL E2 St fuel F t0 t1 y0 order dt w).
  Proof. eapply outcome; [apply msol_id|rewrite <- shF_id at 2; apply (l_ab E1 E2 id_T F Hnd); reflexivity]. Qed.
  Lemma same_bdf fuel t0 t1 y0 order dt w :
    same_outcome eq (@bdf T HS HL E1 St fuel F t0 t1 y0 order dt w) (@bdf T HS HL E2 St fuel F t0 t1 y0 order dt w).
  Proof. eapply outcome; [apply msol_id|rewrite <- shF_id at 2; apply (l_bdf E1 E2 id_T F Hnd); reflexivity]. Qed.
  Lemma same_newton (G : nfunctor T St) x opts stats quiet s : o_precondition opts = false ->
    same_outcome eq (@newton_iterate T HS HL E1 St G x opts stats quiet s) (@newton_iterate T HS HL E2 St G x opts stats quiet s).
  Proof.
    intros Hp. pose proof (l_newton E1 E2 G x opts stats quiet Hp s s eq_refl) as H. unfold same_outcome.
    destruct (newton_iterate G x opts stats quiet s) as [w1 [a|e]], (newton_iterate G x opts stats quiet s) as [w2 [b|e']]; try contradiction; exact H.
  Qed.
End Same.

Lemma erk_initial_stages {T} {HS : Scalar T} {HL : LinAlg T} {HE : Env T} {St} (F : functor T St) fuel t0 t1 y0 opts oo m dt w w' sol :
  erk_odeint fuel F t0 t1 y0 opts oo m dt w = (w', Ok sol) -> exists K0 K, eo_stages sol = K0 :: K /\ Forall (fun x => x = junk) K0.
Proof.
  intros Hr. pose proof (l_erk HE HE (fun t => t) F eq_refl (fun _ _ => eq_refl) (fun _ _ => eq_refl) (fun _ _ => eq_refl) (w_out w) (w_out w) fuel t0 t1 y0 opts oo m dt w w (wl_refl w)) as H.
  cbv beta in H. rewrite Hr in H. destruct (erk_odeint fuel (shF (fun t => t) F) t0 t1 y0 opts oo m dt w) as [w2 [b|e]]; [|contradiction].
  destruct H as (_ & _ & _ & _ & (K1 & K2 & K & Ea & _ & Fa & _) & _). exists K1, K. split; assumption.
Qed.

(** ** Debug and release *)
Lemma release_same_erk {T} {HS : Scalar T} {HL : LinAlg T} (D Rl : Env T) {St} (F : functor T St) fuel t0 t1 y0 opts oo m dt w :
  @ndebug T D = false -> @ndebug T Rl = true -> snd (@erk_odeint T HS HL D St fuel F t0 t1 y0 opts oo m dt w) <> Err EAbort ->
  same_outcome erk_agree (@erk_odeint T HS HL D St fuel F t0 t1 y0 opts oo m dt w) (@erk_odeint T HS HL Rl St fuel F t0 t1 y0 opts oo m dt w).
Proof.
  destruct D as [d j c]. cbn [ndebug]. intros -> HR Hn. rewrite (release_erk j c F fuel t0 t1 y0 opts oo m dt w Hn). apply same_erk. cbn [ndebug]. symmetry. exact HR.
Qed.
Lemma release_same_ab {T} {HS : Scalar T} {HL : LinAlg T} (D Rl : Env T) {St} (F : functor T St) fuel t0 t1 y0 dt w :
  @ndebug T D = false -> @ndebug T Rl = true -> snd (@adams_bashforth T HS HL D St fuel F t0 t1 y0 1 dt w) <> Err EAbort ->
  same_outcome eq (@adams_bashforth T HS HL D St fuel F t0 t1 y0 1 dt w) (@adams_bashforth T HS HL Rl St fuel F t0 t1 y0 1 dt w).
Proof.
  destruct D as [d j c]. cbn [ndebug]. intros -> HR Hn. rewrite (release_ab j c F fuel t0 t1 y0 dt w Hn). apply same_ab. cbn [ndebug]. symmetry. exact HR.
Qed.

(** ** Time shift *)
Section Shift.
  Local Open Scope R_scope.
  Context {E : Env R} {LA : LinAlg R} {St : Type} (s : R) (F : functor R St).
  Let shs := fun t => t + s.
  Lemma s_add t d : shs (sadd t d) = sadd (shs t) d. Proof. unfold shs. simpl. ring. Qed.
  Lemma s_sub a b : ssub (shs a) (shs b) = ssub a b. Proof. unfold shs. simpl. ring. Qed.
  Lemma s_lt a b : sltb (shs a) (shs b) = sltb a b.
  Proof. unfold shs. change (Rltb (a + s) (b + s) = Rltb a b). unfold Rltb. destruct (Rlt_dec (a + s) (b + s)), (Rlt_dec a b); try reflexivity; exfalso; lra. Qed.
  Lemma s_wl (st : St) : wl shs [] [] (World st []) (World st []).
  Proof. split; [reflexivity|]. exists []. split; reflexivity. Qed.
  Lemma irk_shift fuel t0 t1 y0 opts oo m dt st :
    match irk_odeint fuel F (t0 + s) (t1 + s) y0 opts oo m dt (World st []), irk_odeint fuel (shift_functor s F) t0 t1 y0 opts oo m dt (World st []) with
    | (w1, Ok a), (w2, Ok b) =>
        io_t_vals a = map (fun t => t + s) (io_t_vals b) /\ io_y_vals a = io_y_vals b /\ io_stages a = io_stages b /\
        io_err_est a = io_err_est b /\ io_err a = io_err b /\ io_status a = io_status b /\ io_count a = io_count b /\
        w_st w1 = w_st w2 /\ w_out w1 = shift_lines s (w_out w2)
    | (w1, Err e1), (w2, Err e2) => e1 = e2 /\ w_st w1 = w_st w2 /\ w_out w1 = shift_lines s (w_out w2)
    | _, _ => False
    end.
  Proof.
    pose proof (l_irk E E shs F eq_refl s_add s_sub s_lt [] [] fuel t0 t1 y0 opts oo m dt _ _ (s_wl st)) as H.
    change (shF shs F) with (shift_functor s F) in H. unfold shs in H at 1 2.
    destruct (irk_odeint fuel F (t0 + s) (t1 + s) y0 opts oo m dt (World st [])) as [w1 [a|e1]],
      (irk_odeint fuel (shift_functor s F) t0 t1 y0 opts oo m dt (World st [])) as [w2 [b|e2]]; try contradiction.
    - destruct H as ((H1 & l & H2 & H3) & (S1 & S2 & S3 & S4 & S5 & S6 & S7 & S8)). simpl in H2, H3. rewrite H2, H3. repeat split; assumption.
    - destruct H as ((H1 & l & H2 & H3) & H4). simpl in H2, H3. rewrite H2, H3. auto.
  Qed.
  Definition ms_shifted (p q : world R St * res (basic_output R)) : Prop :=
    match p, q with
    | (w1, Ok a), (w2, Ok b) =>
        bo_t_vals a = map (fun t => t + s) (bo_t_vals b) /\ bo_y_vals a = bo_y_vals b /\ bo_status a = bo_status b /\ w_st w1 = w_st w2
    | (w1, Err e1), (w2, Err e2) => e1 = e2 /\ w_st w1 = w_st w2
    | _, _ => False
    end.
  Lemma ms_out (p q : M (world R St) (basic_output R)) st : mrel (wl shs [] []) (msol shs) p q -> ms_shifted (p (World st [])) (q (World st [])).
  Proof.
    intros H. specialize (H _ _ (s_wl st)). unfold ms_shifted. destruct (p _) as [w1 [a|e1]], (q _) as [w2 [b|e2]]; try contradiction.
    - destruct H as ((H1 & _) & (S1 & S2 & S3)). repeat split; assumption.
    - destruct H as ((H1 & _) & H4). auto.
  Qed.
  Lemma ab_shift fuel t0 t1 y0 order dt st :
    ms_shifted (adams_bashforth fuel F (t0 + s) (t1 + s) y0 order dt (World st [])) (adams_bashforth fuel (shift_functor s F) t0 t1 y0 order dt (World st [])).
  Proof. apply ms_out. exact (l_ab E E shs F eq_refl s_add s_sub s_lt [] [] fuel t0 t1 y0 order dt). Qed.
  Lemma bdf_shift fuel t0 t1 y0 order dt st :
    ms_shifted (bdf fuel F (t0 + s) (t1 + s) y0 order dt (World st [])) (bdf fuel (shift_functor s F) t0 t1 y0 order dt (World st [])).
  Proof. apply ms_out. exact (l_bdf E E shs F eq_refl s_add s_sub s_lt [] [] fuel t0 t1 y0 order dt). Qed.
End Shift.
