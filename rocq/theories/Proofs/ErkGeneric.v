(** Consequences of ErkRun in the form of the property theorems. *)
From Verif Require Import Model.Base Model.Scalar Model.LinAlg Model.Enums Model.Options Model.Coeffs Model.ErkCoeffs Model.Erk.
From Verif Require Import Spec.Observe Spec.ErkSpec Spec.Methods Proofs.LoopProofs Proofs.OrderProofs Proofs.TablesGeneric Proofs.ErkProofs Proofs.ErkRun.
Local Open Scope sc_scope.
Local Open Scope mon_scope.

Section Generic.
  Context {T : Type} `{Scalar T} `{LinAlg T} `{Env T}.

  Lemma sc_stages_fsal m sc : In m explicit_methods -> erk_get_coefficients (T := T) m = Ok sc ->
    In (m, length (sc_b sc)) explicit_stage_counts /\ sc_FSAL sc = existsb (Z.eqb m) explicit_fsal.
  Proof.
    intros Hm Hg. destruct (erk_get_ok (T := T) m) as (sc' & Hg' & Ht & _). rewrite Hg in Hg'. injection Hg' as <-.
    simpl in Hm. repeat (destruct Hm as [<-|Hm]; [injection Ht as <-; split; [simpl; tauto|reflexivity]|]). contradiction.
  Qed.
  Lemma sc_b2_empty m sc : erk_get_coefficients (T := T) m = Ok sc -> m = EXPLICIT_EULER \/ m = RUNGE_KUTTA_4 -> sc_b2 sc = [].
  Proof.
    intros Hg Hm. destruct (erk_get_ok (T := T) m) as (sc' & Hg' & Ht & _). rewrite Hg in Hg'. injection Hg' as <-.
    destruct Hm as [->| ->]; injection Ht as <-; reflexivity.
  Qed.

  Context {St : Type}.
  Variables (F : functor T St) (fuel : nat) (t0 t1 : T) (y0 : list T) (opts : erk_options T) (oo : output_options) (m : Z) (dt : T).

  Lemma nolog : forall t y (s : St), (fun _ : St => @nil (call T)) (fst (f_fun F t y s)) = if false then [] ++ [CallFun t y] else [].
  Proof. reflexivity. Qed.

  Section Run.
    Variables (w w' : world T St) (sol : erk_output T).
    Hypothesis Hrun : erk_odeint fuel F t0 t1 y0 opts oo m dt w = (w', Ok sol).

    Lemma erk_aligned :
      let k := length (eo_t_vals sol) in
      (1 <= k)%nat /\ length (eo_y_vals sol) = k /\ length (eo_stages sol) = k /\ length (eo_err_est sol) = k /\ length (eo_err sol) = k /\
      nth_error (eo_t_vals sol) 0 = Some t0 /\ nth_error (eo_y_vals sol) 0 = Some y0 /\
      Forall (fun y => length y = length y0) (eo_y_vals sol) /\
      Forall (fun e => length e = length y0) (eo_err_est sol) /\
      exists s, In (m, s) explicit_stage_counts /\ Forall (fun z => length z = s * length y0)%nat (eo_stages sol).
    Proof.
      destruct (erk_odeint_finished F false (fun _ => []) nolog _ _ _ _ _ _ _ _ _ _ _ Hrun) as (_ & sc & a & b & Hm & Hg & Hd & _ & _ & atts & O & _).
      destruct O as [O1 O2 O3 O4 O5 O6 O7 O8 O9 O10]. rewrite O3, O4, O5, O6, O7. simpl. rewrite !map_length.
      repeat (split; [lia || reflexivity|]). split; [rewrite <- O4; exact O8|]. split; [exact O10|].
      exists (length (sc_b sc)). split; [apply sc_stages_fsal; assumption|exact O9].
    Qed.

    Lemma erk_accounting :
      let steps := (length (eo_t_vals sol) - 1)%nat in
      (eo_status sol = SUCCESS /\ eo_attempt sol = (steps + eo_reject_err sol)%nat /\ eo_elapsed_time sol = Some clock /\
       eo_accept_frac sol = Some (sZ (Z.of_nat steps) /. sZ (Z.of_nat (eo_attempt sol)))) \/
      (eo_status sol = ERROR_MAX_STEPS_EXCEEDED /\ eo_attempt sol = (steps + eo_reject_err sol + 1)%nat /\
       eo_elapsed_time sol = None /\ eo_accept_frac sol = None).
    Proof.
      destruct (erk_odeint_finished F false (fun _ => []) nolog _ _ _ _ _ _ _ _ _ _ _ Hrun) as (_ & sc & a & b & Hm & Hg & Hd & _ & _ & atts & O & _ & _ & _ & E).
      destruct O as [O1 O2 O3 O4 O5 O6 O7 O8 O9 O10]. rewrite O3. simpl. rewrite map_length, Nat.sub_0_r.
      pose proof (accepted_rejected atts) as AR. rewrite O1.
      destruct E as [(E1 & E2 & E3 & E4 & _)|(E1 & E2 & E3 & E4 & _)]; [left|right].
      - rewrite E1, E3, E4, E2. repeat split; try reflexivity. lia.
      - rewrite E1, E3, E4, E2. repeat split; try reflexivity. lia.
    Qed.

    Lemma erk_limit :
      let steps := Z.of_nat (length (eo_t_vals sol) - 1) in
      (eo_status sol = SUCCESS /\ (last (eo_t_vals sol) t0 <?. t1) = false /\
         ((0 <= eo_max_steps opts)%Z -> (steps <= eo_max_steps opts + 1)%Z)) \/
      (eo_status sol = ERROR_MAX_STEPS_EXCEEDED /\ (last (eo_t_vals sol) t0 <?. t1) = true /\
         (0 <= eo_max_steps opts)%Z /\ steps = (eo_max_steps opts + 1)%Z).
    Proof.
      destruct (erk_odeint_finished F false (fun _ => []) nolog _ _ _ _ _ _ _ _ _ _ _ Hrun) as (_ & sc & a & b & Hm & Hg & Hd & _ & _ & atts & O & A & _ & _ & E).
      destruct O as [O1 O2 O3 O4 O5 O6 O7 O8 O9 O10]. destruct A as [A1 A2 A3 A4 A5 A6]. rewrite eff_max_steps in * .
      assert (L : last (eo_t_vals sol) t0 = time_after t0 atts).
      { rewrite O3. apply last_times. }
      rewrite L. rewrite O3. simpl. rewrite map_length, Nat.sub_0_r.
      destruct E as [(E1 & E2 & E3 & E4 & E5)|(E1 & E2 & E3 & E4 & E5 & E6 & E7)]; [left|right]; auto.
    Qed.

    Lemma erk_file :
      exists atts, chained t0 atts /\ w_out w' = w_out w ++ (if write_to_file oo then map (fun a => (at_t a, at_yn a)) atts else []) /\
        length atts = (if (eo_status sol =? SUCCESS)%Z then eo_attempt sol else eo_attempt sol - 1)%nat /\
        eo_t_vals sol = t0 :: map at_end (accepted atts) /\ eo_y_vals sol = y0 :: map at_yn (accepted atts) /\
        Forall (fun a => (at_t a <?. t1) = true) atts.
    Proof.
      destruct (erk_odeint_finished F false (fun _ => []) nolog _ _ _ _ _ _ _ _ _ _ _ Hrun) as (_ & sc & a & b & Hm & Hg & Hd & _ & _ & atts & O & A & Fl & _ & E).
      destruct O as [O1 O2 O3 O4 O5 O6 O7 O8 O9 O10]. destruct A as [A1 A2 A3 A4 A5 A6].
      exists atts. repeat (split; [assumption|]). split; [|auto].
      destruct E as [(E1 & E2 & _)|(E1 & E2 & _)]; rewrite E1, E2; reflexivity || (simpl; lia).
    Qed.
  End Run.

  Lemma erk_no_pair adaptive w : m = EXPLICIT_EULER \/ m = RUNGE_KUTTA_4 ->
    erk_odeint fuel F t0 t1 y0 (ErkOptions adaptive (eo_rel_tol opts) (eo_abs_tol opts) (eo_max_dt opts) (eo_max_steps opts)) oo m dt w =
    erk_odeint fuel F t0 t1 y0 (ErkOptions false (eo_rel_tol opts) (eo_abs_tol opts) (eo_max_dt opts) (eo_max_steps opts)) oo m dt w.
  Proof.
    intros Hm. unfold erk_odeint. destruct (erk_get_ok (T := T) m) as (sc & Hg & _ & _). rewrite Hg.
    unfold bind, lift. rewrite (sc_b2_empty m sc Hg Hm). cbn [eo_adaptive eo_rel_tol eo_abs_tol eo_max_dt eo_max_steps length].
    destruct adaptive; reflexivity.
  Qed.
End Generic.

Section Logged.
  Context {T : Type} `{Scalar T} `{LinAlg T} `{Env T} {St : Type}.
  Variables (F : functor T St).
  Lemma logged_log : forall t y (s : St * list (call T)), snd (fst (f_fun (logged F) t y s)) = if true then snd s ++ [CallFun t y] else snd s.
  Proof. intros t y [s l]. simpl. destruct (f_fun F t y s). reflexivity. Qed.

  Lemma flat_map_length_const {A B} (f : A -> list B) l k : (forall a, length (f a) = k) -> length (flat_map f l) = (length l * k)%nat.
  Proof. intros Hk. induction l as [|a l IH]; [reflexivity|]. simpl. rewrite app_length, Hk, IH. reflexivity. Qed.

  Lemma erk_calls fuel t0 t1 y0 opts oo m dt w w' sol : erk_odeint fuel (logged F) t0 t1 y0 opts oo m dt w = (w', Ok sol) ->
    let executed := (if (eo_status sol =? SUCCESS)%Z then eo_attempt sol else eo_attempt sol - 1)%nat in
    exists l s, snd (w_st w') = snd (w_st w) ++ l /\ count_fun l = eo_fun_evals sol /\ count_jac l = 0%nat /\
      In (m, s) explicit_stage_counts /\
      eo_fun_evals sol = (if existsb (Z.eqb m) explicit_fsal then 1 + executed * (s - 1) else executed * s)%nat.
  Proof.
    intros Hrun.
    destruct (erk_odeint_finished (logged F) true snd logged_log _ _ _ _ _ _ _ _ _ _ _ Hrun) as (_ & sc & a & b & Hm & Hg & Hd & _ & _ & atts & O & A & Fl & L & E).
    destruct O as [O1 O2 O3 O4 O5 O6 O7 O8 O9 O10]. destruct (L eq_refl) as (l & L1 & L2 & L3).
    destruct (sc_stages_fsal m sc Hm Hg) as [S1 S2]. destruct (stages_dim m sc Hm Hd) as (D1 & D2 & D3).
    exists l, (length (sc_b sc)). split; [exact L1|].
    assert (Lf : filter is_fun l = l). { clear - L2. induction l as [|x l IH]; [reflexivity|]. simpl in * . destruct (is_fun x); [|discriminate]. rewrite IH by exact L2. reflexivity. }
    assert (Lj : filter (fun c => negb (is_fun c)) l = []). { clear - L2. induction l as [|x l IH]; [reflexivity|]. simpl in * . destruct (is_fun x); [|discriminate]. apply IH, L2. }
    unfold count_fun, count_jac. rewrite Lf, Lj.
    assert (Ll : length l = (stage_iter_start sc + length atts * (length (sc_b sc) - stage_iter_start sc))%nat).
    { rewrite <- (map_length call_time), L3, app_length. rewrite (flat_map_length_const _ _ (length (sc_b sc) - stage_iter_start sc)%nat).
      - unfold stage_iter_start. destruct (sc_FSAL sc); reflexivity.
      - intros x. unfold stage_times. rewrite map_length, seq_length. congruence. }
    split; [rewrite O2; exact Ll|]. split; [reflexivity|]. split; [exact S1|]. rewrite O2, <- S2.
    assert (Ex : length atts = (if (eo_status sol =? SUCCESS)%Z then eo_attempt sol else eo_attempt sol - 1)%nat).
    { destruct E as [(E1 & E2 & _)|(E1 & E2 & _)]; rewrite E1, E2; reflexivity || (simpl; lia). }
    rewrite <- Ex. unfold stage_iter_start. destruct (sc_FSAL sc); lia.
  Qed.
End Logged.
