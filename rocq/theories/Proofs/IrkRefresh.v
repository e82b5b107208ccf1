(** The refresh interval of the Jacobian does not change what irk::odeint computes. *)
From Verif Require Import Model.Base Model.Scalar Model.LinAlg Model.Newton Model.Enums Model.Options Model.Coeffs Model.IrkCoeffs Model.Irk.
From Verif Require Import Spec.Observe Spec.IrkSpec Spec.IrkRunSpec Proofs.LoopProofs Proofs.RelProofs.
Local Open Scope sc_scope.
Local Open Scope mon_scope.

Section Refresh.
  Context {T : Type} `{Scalar T} `{LinAlg T} `{Env T} {St : Type}.
  Local Notation W := (world T St).
  Variable F : functor T St.
  Hypothesis HF : state_independent F.
  Variable w0 : W.
  Definition same_out (w1 w2 : W) : Prop := w_out w1 = w_out w2.

  Lemma rel_fun t y : mrel same_out eq (in_world (f_fun F t y)) (in_world (f_fun F t y)).
  Proof.
    intros w1 w2 Hw. unfold in_world. destruct (HF t y (w_st w1) (w_st w2)) as [E _]. destruct (f_fun F t y (w_st w1)) as [s1 r1], (f_fun F t y (w_st w2)) as [s2 r2]. simpl in E. subst r2.
    destruct r1; split; auto.
  Qed.
  Lemma rel_lift {A} (r : res A) : mrel same_out eq (lift r) (lift r).
  Proof. apply mrel_lift, rrel_eq. reflexivity. Qed.
  Lemma rel_R y t dt sc Y I : mrel same_out eq (construct_R F y t dt sc Y I) (construct_R F y t dt sc Y I).
  Proof.
    unfold construct_R. eapply mrel_bind.
    - apply mrel_foldM with (R := eq); [|reflexivity]. intros i a b _ <-. eapply mrel_bind; [apply rel_lift|]. intros ? ? <-. eapply mrel_bind; [apply rel_lift|]. intros ? ? <-.
      eapply mrel_bind; [apply rel_lift|]. intros ? ? <-. eapply mrel_bind; [apply rel_fun|]. intros ? ? <-. apply rel_lift.
    - intros ? ? <-. eapply mrel_bind; [apply rel_lift|]. intros ? ? <-. apply rel_lift.
  Qed.

  (** refreshing answers [x] whatever the state *)
  Definition answers_always {A} (m : M W A) (x : res A) : Prop := forall w, snd (m w) = x /\ w_out (fst (m w)) = w_out w.
  Lemma refresh_always y t dt sc plu LUP : exists x, answers_always (refresh_jacobi_matrix F y t dt sc plu LUP) x /\
    match x with Ok (J, JY, LUP') => answers_always (refresh_jacobi_matrix F y t dt sc plu LUP') x | Err _ => True end.
  Proof.
    assert (G : forall L, forall w, snd (refresh_jacobi_matrix F y t dt sc plu L w) = snd (refresh_jacobi_matrix F y t dt sc plu L w0) /\ w_out (fst (refresh_jacobi_matrix F y t dt sc plu L w)) = w_out w).
    { intros L w. unfold refresh_jacobi_matrix, bind, in_world. destruct (HF t y (w_st w) (w_st w0)) as [_ E]. destruct (f_jac F t y (w_st w)) as [s1 r1], (f_jac F t y (w_st w0)) as [s2 r2]. simpl in E. subst r2.
      destruct r1 as [J|e]; [|split; reflexivity]. unfold lift. destruct (msub _ _) as [JY|e]; [|split; reflexivity].
      destruct (plu && negb ndebug); [|split; reflexivity]. destruct (la_lu JY); split; reflexivity. }
    exists (snd (refresh_jacobi_matrix F y t dt sc plu LUP w0)). split; [intros w; apply G|].
    destruct (snd (refresh_jacobi_matrix F y t dt sc plu LUP w0)) as [[[J JY] LUP']|e] eqn:E0; [|exact I].
    intros w. destruct (G LUP' w) as [E1 E2]. split; [|exact E2]. rewrite E1. clear E1 E2 w. unfold refresh_jacobi_matrix, bind, in_world in * .
    destruct (f_jac F t y (w_st w0)) as [s1 r1]. destruct r1 as [J1|]; [|discriminate]. unfold lift in * . destruct (msub _ _) as [JY1|e] eqn:Em; [|discriminate].
    destruct (plu && negb ndebug).
    - destruct (la_lu JY1); [|discriminate]. exact E0.
    - simpl in * . injection E0 as -> -> ->. reflexivity.
  Qed.

  (** the loop of the stage solver *)
  Section Stage.
    Variables (y : list T) (t dt : T) (sc : solver_coeffs T) (adaptive plu : bool) (r1 r2 : Z).
    Hypothesis Hr1 : r1 <> 0%Z.
    Hypothesis Hr2 : r2 <> 0%Z.
    Definition same_stage (s1 s2 : stage_state T) : Prop :=
      s2 = StageState (sg_iters s1) (sg_Y s1) (sg_R s1) (sg_Rnorm2 s1) (sg_step s1) (sg_J s1) (sg_J_Y s1) (sg_LUP s1) (sg_done s1) (sg_fun s1) (sg_jac s2) /\
      answers_always (refresh_jacobi_matrix F y t dt sc plu (sg_LUP s1)) (Ok (sg_J s1, sg_J_Y s1, sg_LUP s1)).
    Lemma always_run {A} (m : M W A) x w : answers_always m x -> exists w', m w = (w', x) /\ w_out w' = w_out w.
    Proof. intros Ha. destruct (Ha w) as [E1 E2]. destruct (m w) as [w' r]. simpl in * . subst r. eauto. Qed.
    Lemma rel_body xt2 Rt2 s1 s2 : same_stage s1 s2 ->
      mrel same_out (srel same_stage (fun (_ _ : Empty_set) => True)) (stage_body F y t dt sc adaptive plu r1 xt2 Rt2 s1) (stage_body F y t dt sc adaptive plu r2 xt2 Rt2 s2).
    Proof.
      intros [-> Ha]. unfold stage_body. cbn [sg_iters sg_Y sg_R sg_Rnorm2 sg_step sg_J sg_J_Y sg_LUP sg_done sg_fun sg_jac].
      eapply mrel_bind; [apply rel_lift|]. intros dY ? <-. eapply mrel_bind; [apply rel_lift|]. intros xn ? <-. eapply mrel_bind; [apply rel_lift|]. intros Y ? <-.
      eapply mrel_bind; [apply rel_R|]. intros Rv ? <-. eapply mrel_bind; [apply rel_lift|]. intros Rn ? <-.
      destruct ((Rn <?. Rt2) || (xn <?. xt2)).
      - apply mrel_ret. split; [reflexivity|exact Ha].
      - apply Z.eqb_neq in Hr1, Hr2. rewrite Hr1, Hr2. intros w1 w2 Hw. unfold same_out in * .
        destruct (always_run _ _ w1 Ha) as (v1 & E1 & O1). destruct (always_run _ _ w2 Ha) as (v2 & E2 & O2).
        destruct (Z.rem (sg_iters s1) r1 =? 0)%Z, (Z.rem (sg_iters s1) r2 =? 0)%Z; unfold bind; rewrite ?E1, ?E2; unfold ret; cbn [srel]; (split; [congruence|]); (split; [reflexivity|exact Ha]).
    Qed.
    Definition same_result (a b : stage_result T) : Prop := b = StageResult (sr_status a) (sr_Y a) (sr_J a) (sr_iters a) (sr_res a) (sr_fun a) (sr_jac b).
    Lemma rel_solve maxit xt Rt f0 j1 j2 : mrel same_out same_result (newton_solve_stages F y t dt sc adaptive plu maxit r1 xt Rt f0 j1) (newton_solve_stages F y t dt sc adaptive plu maxit r2 xt Rt f0 j2).
    Proof.
      unfold newton_solve_stages. destruct (refresh_always y t dt sc plu (mat_empty, mat_empty, mat_empty)) as (x & Hx & Hx2).
      apply mrel_bind with (R := fun a b => a = b /\ Ok a = x).
      - intros w1 w2 Hw. destruct (always_run _ _ w1 Hx) as (v1 & -> & O1). destruct (always_run _ _ w2 Hx) as (v2 & -> & O2). unfold same_out in * . destruct x; split; auto; congruence.
      - intros [[J JY] LUP] ? [<- <-]. eapply mrel_bind; [apply rel_R|]. intros Rv ? <-. eapply mrel_bind; [apply rel_lift|]. intros Rn ? <-.
        eapply mrel_bind; [apply mrel_while with (R := same_stage) (Q := fun (_ _ : Empty_set) => True)|].
        + intros s1 s2 [-> _]. reflexivity.
        + intros s1 s2 Hs _. apply rel_body, Hs.
        + split; [reflexivity|exact Hx2].
        + intros [s1|[]] [s2|[]] Hs; simpl in Hs; try contradiction. destruct Hs as [-> _]. apply mrel_ret. reflexivity.
    Qed.
  End Stage.
  Lemma same_jac_refl (sol : irk_output T) : same_but_jac_evals sol sol.
  Proof. destruct sol as [? ? ? ? ? ? ? ? []]. reflexivity. Qed.

  Section Main.
    Variables (t1 : T) (opts : irk_options T) (sc : solver_coeffs T) (oo : output_options) (n1 n2 : options T) (mo : Z) (dw d2w : list T).
    Hypothesis Hn : n2 = Options (o_tol n1) (o_dx_delta n1) (o_maxit n1) (o_time_internals n1) (o_max_step n1) (o_refresh_jac n2) (o_precondition n1) (o_limit_step n1).
    Hypothesis Hr1 : o_refresh_jac n1 <> 0%Z.
    Hypothesis Hr2 : o_refresh_jac n2 <> 0%Z.
    Definition same_state (s1 s2 : irk_state T) : Prop :=
      s2 = IrkState (is_t s1) (is_y s1) (is_dt s1) (is_step s1) (is_alt s1) (is_maxit s1) (is_relax s1) (is_dts0 s1) (is_dts1 s1) (is_err0 s1) (is_sol s2) /\
      same_but_jac_evals (is_sol s1) (is_sol s2).
    Lemma rel_estimate t dt y Y J alt : mrel same_out eq (irk_estimate F opts sc dw d2w t dt y Y J alt) (irk_estimate F opts sc dw d2w t dt y Y J alt).
    Proof.
      unfold irk_estimate. eapply mrel_bind; [apply rel_lift|]. intros ? ? <-. eapply mrel_bind; [destruct (io_adaptive opts); [apply rel_lift|apply mrel_ret; reflexivity]|]. intros ? ? <-.
      eapply mrel_bind; [apply rel_fun|]. intros ? ? <-. do 5 (eapply mrel_bind; [apply rel_lift|]; intros ? ? <-). eapply mrel_bind; [apply rel_lift|]. intros ? ? <-.
      destruct alt; [|apply mrel_ret; reflexivity]. eapply mrel_bind; [apply rel_lift|]. intros ? ? <-. eapply mrel_bind; [apply rel_fun|]. intros ? ? <-.
      do 3 (eapply mrel_bind; [apply rel_lift|]; intros ? ? <-). apply mrel_ret. reflexivity.
    Qed.
    Lemma rel_record a b step t yn e err : same_but_jac_evals a b -> mrel same_out same_but_jac_evals (irk_record sc oo a step t yn e err) (irk_record sc oo b step t yn e err).
    Proof.
      intros Hab. unfold irk_record. destruct (output_interval oo =? 0)%Z; [apply mrel_fail|]. destruct (Z.rem step (output_interval oo) =? 0)%Z; [|apply mrel_ret, Hab].
      apply mrel_bind with (R := eq).
      - destruct (write_to_file oo); [|apply mrel_ret; reflexivity]. destruct (output_stream oo); [|apply mrel_fail]. intros w1 w2 Hw. unfold write_line, same_out in * . simpl. rewrite Hw. auto.
      - intros _ _ _. apply mrel_ret. unfold same_but_jac_evals in * . rewrite Hab. destruct (store_in_vectors oo); reflexivity.
    Qed.
    Lemma rel_main s1 s2 : same_state s1 s2 ->
      mrel same_out (srel same_state same_but_jac_evals) (irk_body F t1 opts sc oo n1 mo dw d2w s1) (irk_body F t1 opts sc oo n2 mo dw d2w s2).
    Proof.
      intros [E2 Hs]. unfold irk_body. set (sol2 := is_sol s2) in * . set (sol1 := is_sol s1) in * . clearbody sol2.
      assert (Em : o_maxit n2 = o_maxit n1 /\ o_tol n2 = o_tol n1 /\ o_dx_delta n2 = o_dx_delta n1) by (rewrite Hn; auto). destruct Em as (Em & Et & Ed). rewrite Em, Et, Ed. clear Em Et Ed.
      subst s2. cbn [is_t is_y is_dt is_step is_alt is_maxit is_relax is_dts0 is_dts1 is_err0 is_sol].
      clearbody sol1. destruct sol1 as [o1 o2 o3 o4 o5 o6 o7 o8 [c1 c2 c3 c4 c5 c6 c7 c8 c9]]. unfold same_but_jac_evals in Hs.
      set (j2 := ct_jac_evals (io_count sol2)) in Hs. clearbody j2. cbn in Hs. subst sol2.
      cbn [io_status io_t_vals io_y_vals io_stages io_err_est io_err io_elapsed_time io_accept_frac io_count ct_attempt ct_reject_newton ct_reject_err ct_newton_success ct_newton_incr_diverge ct_newton_iter_error_too_large ct_newton_maxit_exceed ct_fun_evals ct_jac_evals].
      destruct ((0 <=? io_max_steps opts)%Z && (io_max_steps opts <? is_step s1)%Z).
      - apply mrel_ret. cbn [srel]. reflexivity.
      - eapply mrel_bind; [apply rel_solve; assumption|]. intros a b Hab. rewrite Hab. cbn [sr_status sr_Y sr_J sr_iters sr_res sr_fun sr_jac].
        destruct (negb (sr_status a =? Newton.SUCCESS)%Z).
        + destruct (negb (io_adaptive opts)).
          * apply mrel_ret. cbn [srel]. reflexivity.
          * apply mrel_bind with (R := eq).
            -- destruct (is_step s1 - is_relax s1 >? 15)%Z; [|apply mrel_ret; reflexivity]. eapply mrel_bind; [apply rel_lift|]. intros ? ? <-. apply mrel_ret. reflexivity.
            -- intros [mx rx] ? <-. apply mrel_ret. cbn [srel]. split; [reflexivity|]. cbn [is_sol]. reflexivity.
        + eapply mrel_bind; [apply rel_estimate|]. intros [[yn es] calls] ? <-. eapply mrel_bind; [apply rel_lift|]. intros tot ? <-.
          eapply mrel_bind; [apply mrel_assert; reflexivity|]. intros _ _ _. eapply mrel_bind; [apply rel_lift|]. intros nd ? <-.
          match goal with |- context [if io_adaptive opts && ?e then ret _ else _] => destruct (io_adaptive opts && e) end.
          * apply mrel_ret. cbn [srel]. split; [reflexivity|]. cbn [is_sol]. reflexivity.
          * eapply mrel_bind; [apply rel_record; reflexivity|]. intros x1 x2 Hx. apply mrel_ret. cbn [srel]. split; [reflexivity|]. cbn [is_sol]. exact Hx.
    Qed.
  End Main.

  Lemma rel_odeint fuel t0 t1 y0 opts oo m dt r1 r2 : r1 <> 0%Z -> r2 <> 0%Z ->
    mrel same_out same_but_jac_evals (irk_odeint fuel F t0 t1 y0 (with_refresh opts r1) oo m dt) (irk_odeint fuel F t0 t1 y0 (with_refresh opts r2) oo m dt).
  Proof.
    intros Hr1 Hr2. unfold irk_odeint. eapply mrel_bind; [apply rel_lift|]. intros sc ? <-. eapply mrel_bind; [apply mrel_assert; reflexivity|]. intros _ _ _.
    assert (G : forall o, mrel same_out same_but_jac_evals (irk_guts fuel F t0 t1 y0 (with_refresh o r1) dt sc oo) (irk_guts fuel F t0 t1 y0 (with_refresh o r2) dt sc oo)).
    { intros o. unfold irk_guts, with_refresh. cbn [io_newton]. destruct (io_newton o) as [n|].
      2: { eapply mrel_bind; [apply mrel_assert; reflexivity|]. intros _ _ _. eapply mrel_bind; [apply mrel_assert; reflexivity|]. intros _ _ _. apply mrel_bind with (R := fun a b => False); [intros w1 w2 Hw; split; auto|contradiction]. }
      eapply mrel_bind; [apply mrel_assert; reflexivity|]. intros _ _ _. eapply mrel_bind; [apply mrel_assert; reflexivity|]. intros _ _ _.
      apply mrel_bind with (R := fun a b => a = Options (o_tol n) (o_dx_delta n) (o_maxit n) (o_time_internals n) (o_max_step n) r1 (o_precondition n) (o_limit_step n) /\
                                            b = Options (o_tol n) (o_dx_delta n) (o_maxit n) (o_time_internals n) (o_max_step n) r2 (o_precondition n) (o_limit_step n)).
      { intros w1 w2 Hw. split; auto. }
      intros n1 n2 [E1 E2]. do 4 (eapply mrel_bind; [apply rel_lift|]; intros ? ? <-).
      eapply mrel_bind.
      - apply mrel_while with (R := same_state) (Q := same_but_jac_evals).
        + intros s1 s2 [-> _]. reflexivity.
        + intros s1 s2 Hs _. unfold irk_body. cbn [io_adaptive io_rel_tol io_abs_tol io_max_dt io_max_steps].
          apply (rel_main t1 (IrkOptions (io_adaptive o) (io_rel_tol o) (io_abs_tol o) (io_max_dt o) (io_max_steps o) None) sc oo n1 n2); [subst; reflexivity|subst; exact Hr1|subst; exact Hr2|exact Hs].
        + split; [subst; reflexivity|apply same_jac_refl].
      - intros [s1|x1] [s2|x2] Hs; simpl in Hs; try contradiction; [|apply mrel_ret, Hs].
        destruct Hs as [E Hs]. apply mrel_ret. unfold same_but_jac_evals in * . set (b := is_sol s2) in * . clearbody b. rewrite Hs. rewrite E. reflexivity. }
    destruct (io_adaptive (with_refresh opts r1) && (length (sc_b2 sc) =? 0)%nat) eqn:Ea.
    - change (io_adaptive (with_refresh opts r2)) with (io_adaptive (with_refresh opts r1)). rewrite Ea. exact (G (IrkOptions false (io_rel_tol opts) (io_abs_tol opts) (io_max_dt opts) (io_max_steps opts) (io_newton opts))).
    - change (io_adaptive (with_refresh opts r2)) with (io_adaptive (with_refresh opts r1)). rewrite Ea. apply G.
  Qed.
End Refresh.

Section Final.
  Context {T : Type} `{Scalar T} `{LinAlg T} `{Env T} {St : Type}.
  Local Notation W := (world T St).
  (** the two runs do the same, including failing and writing to the file *)
  Lemma irk_refresh (F : functor T St) : state_independent F -> forall fuel t0 t1 y0 opts oo m dt r1 r2 (w w1 w2 : W) x1 x2, r1 <> 0%Z -> r2 <> 0%Z ->
    irk_odeint fuel F t0 t1 y0 (with_refresh opts r1) oo m dt w = (w1, x1) -> irk_odeint fuel F t0 t1 y0 (with_refresh opts r2) oo m dt w = (w2, x2) ->
    w_out w1 = w_out w2 /\
    match x1, x2 with Ok a, Ok b => same_but_jac_evals a b | Err e1, Err e2 => e1 = e2 | _, _ => False end.
  Proof.
    intros HF fuel t0 t1 y0 opts oo m dt r1 r2 w w1 w2 x1 x2 Hr1 Hr2 E1 E2.
    pose proof (rel_odeint F HF w fuel t0 t1 y0 opts oo m dt r1 r2 Hr1 Hr2 w w eq_refl) as G. rewrite E1, E2 in G. unfold same_out in G. destruct x1, x2; tauto.
  Qed.
  (** ... and with interval 0 the remainder is taken modulo 0 as soon as an iteration does not converge *)
  Lemma stage_refresh_zero (F : functor T St) y t dt sc adaptive plu maxit xt Rt f0 j0 (w w' : W) sr :
    newton_solve_stages F y t dt sc adaptive plu maxit 0 xt Rt f0 j0 w = (w', Ok sr) ->
    (sr_status sr = Newton.SUCCESS /\ sr_iters sr = 1%Z) \/ (maxit <= 1)%Z.
  Proof.
    unfold newton_solve_stages. intros Hr. apply bind_ok in Hr. destruct Hr as (w1 & [[J JY] LUP] & _ & Hr).
    apply bind_ok in Hr. destruct Hr as (w2 & R & HR & Hr). apply bind_ok in Hr. destruct Hr as (w3 & Rn & Hn & Hr). apply bind_ok in Hr. destruct Hr as (w4 & r & Hw & Hr).
    destruct (Z.le_gt_cases maxit 1) as [|Hm]; [right; assumption|left].
    match type of Hw with while ?c ?b ?f ?s _ = _ =>
      assert (WI : match r with inl s' => (sg_iters s' = 1%Z /\ (sg_done s' = false \/ sg_done s' = true)) /\ c s' = false | inr _ => False end);
      [refine (while_inv c b (fun _ sx => sg_iters sx = 1%Z /\ (sg_done sx = false \/ sg_done sx = true)) (fun _ _ => False) f s w3 w4 r _ _ _ Hw)|] end.
    - intros wa s wb s' [I1 I2] Hc Hb. unfold stage_body in Hb. repeat (apply bind_ok in Hb; destruct Hb as (? & ? & _ & Hb)).
      destruct (_ || _); [|discriminate Hb]. apply ret_ok in Hb. destruct Hb as [_ [= <-]]. cbn. auto.
    - intros wa s wb s' _ _ Hb. destruct s'.
    - cbn. auto.
    - destruct r as [s|[]]. destruct WI as [[I1 I2] Hc]. apply ret_ok in Hr. destruct Hr as [_ <-]. cbn. split; [|exact I1].
      destruct (sg_done s) eqn:Ed; [reflexivity|]. cbn in Hc. apply Z.ltb_ge in Hc. lia.
  Qed.
End Final.
