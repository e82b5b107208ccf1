(** Times and step sizes of the explicit integrator in exact arithmetic. *)
From Coq Require Import Reals Lra Sorting.Sorted.
From Verif Require Import Model.Base Model.Scalar Model.LinAlg Model.Enums Model.Options Model.Coeffs Model.ErkCoeffs Model.Erk.
From Verif Require Import Spec.Sums Spec.Trees Spec.RkSpec Spec.Observe Spec.ErkSpec Spec.Methods.
From Verif Require Import Proofs.SumsProofs Proofs.LoopProofs Proofs.OrderProofs Proofs.TablesGeneric Proofs.ErkCoeffsProofs Proofs.ErkProofs Proofs.ErkRun Proofs.ErkReal Proofs.ErkGeneric.
Local Open Scope R_scope.

Lemma clip_R t1 t dt : clip t1 t dt = Rmin dt (t1 - t).
Proof.
  unfold clip. change (sltb (Scalar := RScalar)) with Rltb. change (sadd (Scalar := RScalar)) with Rplus. change (ssub (Scalar := RScalar)) with Rminus.
  destruct (Rltb t1 (t + dt)) eqn:El.
  - apply Rltb_true in El. rewrite Rmin_right; lra.
  - apply Rltb_false in El. rewrite Rmin_left; lra.
Qed.

Lemma Rpower_pos x y : 0 < Rpower x y.
Proof. unfold Rpower. apply exp_pos. Qed.
Lemma Rpower_le1 x y : 0 < x <= 1 -> 0 <= y -> Rpower x y <= 1.
Proof.
  intros [Hx Hx1] Hy. destruct (Req_dec x 1) as [->|Hn].
  - unfold Rpower. rewrite ln_1, Rmult_0_r, exp_0. lra.
  - unfold Rpower. rewrite <- exp_0. assert (ln x < ln 1) by (apply ln_increasing; lra). rewrite ln_1 in H.
    destruct (Req_dec y 0) as [->|Hy0]; [rewrite Rmult_0_l; right; reflexivity|]. left. apply exp_increasing. nra.
Qed.

(** the factor applied to the step size *)
Definition growth (mo : Z) (err : R) : R := 9 / 10 * Rmin 4 (Rpower (1 / err) (1 / (1 + IZR mo))).
Lemma new_dt_R opts mo err dt : 0 < err ->
  erk_new_dt opts mo err dt = if Rlt_dec 0 (eo_max_dt opts) then Rmin (eo_max_dt opts) (dt * growth mo err) else dt * growth mo err.
Proof.
  intros He. unfold erk_new_dt, sZ, growth. change (spow (Scalar := RScalar)) with Rpow. rewrite !smin_R.
  cbn [slit sdiv sadd smul sltb RScalar]. unfold Rpow. replace (Rlit 9 (-1)) with (9 / 10) by (unfold Rlit, Z.pow_pos; simpl; lra). unfold Rlit.
  assert (H1 : 0 < 1 / err) by (apply Rdiv_lt_0_compat; lra). destruct (Rlt_dec 0 (1 / err)); [|lra].
  replace (9 / 10 * dt * Rmin 4 (Rpower (1 / err) (1 / (1 + IZR mo)))) with (dt * (9 / 10 * Rmin 4 (Rpower (1 / err) (1 / (1 + IZR mo))))) by ring.
  unfold Rltb. destruct (Rlt_dec 0 (eo_max_dt opts)); reflexivity.
Qed.
Lemma growth_pos mo err : 0 < err -> 0 < growth mo err.
Proof. intros He. unfold growth. pose proof (Rpower_pos (1 / err) (1 / (1 + IZR mo))). apply Rmult_lt_0_compat; [lra|]. apply Rmin_glb_lt; lra. Qed.
Lemma growth_le mo err : growth mo err <= 36 / 10.
Proof. unfold growth. pose proof (Rmin_l 4 (Rpower (1 / err) (1 / (1 + IZR mo)))). lra. Qed.
Lemma growth_rej mo err : (0 <= mo)%Z -> 1 <= err -> growth mo err <= 9 / 10.
Proof.
  intros Hm He. unfold growth. pose proof (Rmin_r 4 (Rpower (1 / err) (1 / (1 + IZR mo)))).
  assert (Rpower (1 / err) (1 / (1 + IZR mo)) <= 1); [|lra]. apply IZR_le in Hm. apply Rpower_le1.
  - split; [apply Rdiv_lt_0_compat; lra|]. apply Rmult_le_reg_r with err; [lra|]. unfold Rdiv. rewrite Rmult_assoc, Rinv_l; lra.
  - left. apply Rdiv_lt_0_compat; lra.
Qed.
Lemma err_pos (e : R) err : err = (if (e <?. machine_precision)%sc then machine_precision else e) -> 0 < err.
Proof.
  rewrite mprec_eq. change (sltb (Scalar := RScalar)) with Rltb. intros ->. pose proof mprec_pos. destruct (Rltb e mprec) eqn:El; [lra|].
  apply Rltb_false in El. lra.
Qed.

Lemma firstn_S {A} (l : list A) k a : nth_error l k = Some a -> firstn (S k) l = firstn k l ++ [a].
Proof. revert k. induction l as [|x l IH]; intros [|k] Hk; simpl in *; try discriminate; [injection Hk as ->; reflexivity|]. rewrite (IH k Hk). reflexivity. Qed.

Section Times.
  Context {E : Env R} {LA : LinAlg R} {St : Type}.
  Variables (t0 t1 : R) (y0 : list R) (opts : erk_options R) (sc : solver_coeffs R) (oo : output_options) (mo : Z) (dt0 : R) (atts : list (attempt R)).
  Hypothesis Hatt : attempts_ok t0 t1 opts mo dt0 atts.
  Hypothesis Hmo : (0 <= mo)%Z.

  Local Notation dta := (dt_after t0 t1 opts mo dt0).
  Lemma att_err_pos k a : eo_adaptive opts = true -> nth_error atts k = Some a -> 0 < at_err a.
  Proof.
    intros Ea Hk. destruct Hatt as [_ _ _ _ _ H6]. specialize (H6 Ea). rewrite Forall_forall in H6.
    destruct (H6 a (nth_error_In _ _ Hk)) as [e He]. exact (err_pos e _ He).
  Qed.
  Lemma dt_after_S k a : nth_error atts k = Some a -> dta (firstn (S k) atts) = next_dt opts mo a.
  Proof. intros Hk. rewrite (firstn_S _ _ _ Hk). unfold dt_after. rewrite fold_left_app. reflexivity. Qed.
  Lemma time_S k a : nth_error atts k = Some a -> time_after t0 (firstn (S k) atts) = if at_ok a then at_t a + at_dt a else at_t a.
  Proof.
    intros Hk. rewrite (firstn_S _ _ _ Hk), time_after_snoc. destruct Hatt as [H1 _ _ _ _ _]. rewrite <- (H1 k a Hk). reflexivity.
  Qed.
  Lemma accepted_S k a : nth_error atts k = Some a -> accepted (firstn (S k) atts) = accepted (firstn k atts) ++ (if at_ok a then [a] else []).
  Proof. intros Hk. rewrite (firstn_S _ _ _ Hk). apply accepted_snoc. Qed.
  Lemma att_before k a : nth_error atts k = Some a -> at_t a < t1.
  Proof. intros Hk. destruct Hatt as [_ _ _ H4 _ _]. rewrite Forall_forall in H4. apply Rltb_true. exact (H4 a (nth_error_In _ _ Hk)). Qed.
  Lemma att_dt k a : nth_error atts k = Some a -> at_dt a = Rmin (dta (firstn k atts)) (t1 - at_t a).
  Proof. intros Hk. destruct Hatt as [_ H2 _ _ _ _]. rewrite <- clip_R. exact (H2 k a Hk). Qed.
  Lemma att_t k a : nth_error atts k = Some a -> at_t a = time_after t0 (firstn k atts).
  Proof. intros Hk. destruct Hatt as [H1 _ _ _ _ _]. exact (H1 k a Hk). Qed.
  Lemma att_ok k a : nth_error atts k = Some a -> at_ok a = if eo_adaptive opts then negb (Rleb 1 (at_err a)) else true.
  Proof. intros Hk. destruct Hatt as [_ _ H3 _ _ _]. rewrite Forall_forall in H3. exact (H3 a (nth_error_In _ _ Hk)). Qed.

  Lemma next_dt_pos k a : nth_error atts k = Some a -> 0 < at_dt a -> 0 < next_dt opts mo a.
  Proof.
    intros Hk Hp. unfold next_dt. destruct (eo_adaptive opts) eqn:Ea; [|exact Hp]. pose proof (att_err_pos k a Ea Hk) as He.
    rewrite new_dt_R by exact He. pose proof (growth_pos mo _ He). assert (0 < at_dt a * growth mo (at_err a)) by (apply Rmult_lt_0_compat; assumption).
    destruct (Rlt_dec 0 (eo_max_dt opts)); [apply Rmin_glb_lt|]; assumption.
  Qed.

  Section Pos.
  Hypothesis Hpos : 0 < clip t1 t0 dt0.
  Lemma t0_lt : t0 < t1.
  Proof. rewrite clip_R in Hpos. pose proof (Rmin_r dt0 (t1 - t0)). lra. Qed.

  Lemma times_prefix k : (k <= length atts)%nat ->
    0 < dta (firstn k atts) /\ t0 <= time_after t0 (firstn k atts) <= t1 /\
    StronglySorted Rlt (t0 :: map at_end (accepted (firstn k atts))) /\
    Forall (fun x => t0 <= x <= time_after t0 (firstn k atts)) (t0 :: map at_end (accepted (firstn k atts))).
  Proof.
    induction k as [|k IH]; intros Hk.
    - simpl. pose proof t0_lt. split; [exact Hpos|]. split; [lra|]. split; [repeat constructor|repeat constructor; lra].
    - destruct (IH ltac:(lia)) as (I1 & I2 & I3 & I4). destruct (nth_error atts k) as [a|] eqn:Ek.
      2:{ apply nth_error_None in Ek. lia. }
      pose proof (att_before k a Ek) as Hb. pose proof (att_dt k a Ek) as Hd. pose proof (att_t k a Ek) as Ht.
      assert (Hdp : 0 < at_dt a) by (rewrite Hd; apply Rmin_glb_lt; lra).
      assert (Hde : at_t a + at_dt a <= t1) by (rewrite Hd; pose proof (Rmin_r (dta (firstn k atts)) (t1 - at_t a)); lra).
      rewrite (dt_after_S k a Ek), (time_S k a Ek), (accepted_S k a Ek).
      split; [exact (next_dt_pos k a Ek Hdp)|]. rewrite <- Ht in * . destruct (at_ok a).
      + split; [lra|]. rewrite map_app. simpl map. change (at_end a) with (at_t a + at_dt a).
        rewrite app_comm_cons. split.
        * clear IH. remember (t0 :: map at_end (accepted (firstn k atts))) as l. clear Heql.
          induction I3 as [|x l S IH F]; simpl; [repeat constructor|]. inversion I4; subst. constructor.
          -- apply IH. assumption.
          -- apply Forall_app. split; [exact F|]. repeat constructor. lra.
        * apply Forall_app. split; [|repeat constructor; lra]. eapply Forall_impl; [|exact I4]. intros x Hx. simpl in Hx. lra.
      + rewrite app_nil_r. split; [lra|]. split; assumption.
  Qed.
  Lemma att_dt_pos k a : nth_error atts k = Some a -> 0 < at_dt a.
  Proof.
    intros Hk. rewrite (att_dt k a Hk). destruct (times_prefix k) as (H & _).
    { apply Nat.lt_le_incl, nth_error_Some. congruence. }
    pose proof (att_before k a Hk). apply Rmin_glb_lt; lra.
  Qed.

  Lemma steps_bounds : eo_adaptive opts = true ->
    consecutive (fun a b => at_dt b <= 36 / 10 * at_dt a /\ (0 < eo_max_dt opts -> at_dt b <= eo_max_dt opts) /\ (at_ok a = false -> at_dt b < at_dt a)) atts.
  Proof.
    intros Ea k a b Ha Hb. pose proof (att_dt_pos k a Ha) as Hp. rewrite (att_dt (S k) b Hb), (dt_after_S k a Ha).
    pose proof (Rmin_l (next_dt opts mo a) (t1 - at_t b)) as Hl. unfold next_dt in * . rewrite Ea in * .
    pose proof (att_err_pos k a Ea Ha) as He. rewrite (new_dt_R opts mo (at_err a) (at_dt a) He) in * .
    pose proof (growth_le mo (at_err a)) as G1. pose proof (growth_pos mo (at_err a) He) as G2.
    assert (G3 : at_dt a * growth mo (at_err a) <= 36 / 10 * at_dt a) by nra.
    set (nd := if Rlt_dec 0 (eo_max_dt opts) then Rmin (eo_max_dt opts) (at_dt a * growth mo (at_err a)) else at_dt a * growth mo (at_err a)) in * .
    assert (Hnd : nd <= at_dt a * growth mo (at_err a)) by (unfold nd; destruct (Rlt_dec 0 (eo_max_dt opts)); [apply Rmin_r|lra]).
    split; [lra|]. split.
    - intros Hm. assert (nd <= eo_max_dt opts) by (unfold nd; destruct (Rlt_dec 0 (eo_max_dt opts)); [apply Rmin_l|contradiction]). lra.
    - intros Hr. rewrite (att_ok k a Ha), Ea in Hr. apply negb_false_iff, Rleb_true in Hr.
      pose proof (growth_rej mo (at_err a) Hmo Hr). nra.
  Qed.
  Lemma steps_fixed : eo_adaptive opts = false -> forall a, In a atts -> at_dt a = Rmin dt0 (t1 - at_t a).
  Proof.
    intros Ea a Ha. apply In_nth_error in Ha. destruct Ha as [k Hk].
    revert a Hk. induction k as [|k IH]; intros a Hk; rewrite (att_dt _ a Hk).
    - rewrite (att_t 0 a Hk). change (dta (firstn 0 atts)) with (clip t1 t0 dt0). change (time_after t0 (firstn 0 atts)) with t0. rewrite clip_R. apply Rmin_left, Rmin_r.
    - destruct (nth_error atts k) as [a'|] eqn:Ek.
      2:{ apply nth_error_None in Ek. assert (S k < length atts)%nat by (apply nth_error_Some; congruence). lia. }
      rewrite (dt_after_S k a' Ek). unfold next_dt. rewrite Ea. rewrite (IH a' eq_refl).
      pose proof (att_t (S k) a Hk) as Ht. rewrite (time_S k a' Ek) in Ht. rewrite (att_ok k a' Ek), Ea in Ht.
      pose proof (att_before (S k) a Hk) as Hb. rewrite (IH a' eq_refl) in Ht.
      destruct (Rle_dec dt0 (t1 - at_t a')) as [Hle|Hgt].
      + rewrite (Rmin_left dt0 (t1 - at_t a')) by exact Hle. reflexivity.
      + rewrite Rmin_right in Ht by lra. lra.
  Qed.
  End Pos.

  (** a non-positive step never gets anywhere *)
  Lemma stuck_prefix : clip t1 t0 dt0 <= 0 -> t0 < t1 -> forall k, (k <= length atts)%nat -> dta (firstn k atts) <= 0 /\ time_after t0 (firstn k atts) <= t0.
  Proof.
    intros Hn Hlt. induction k as [|k IH]; intros Hk; [split; [exact Hn|change (time_after t0 (firstn 0 atts)) with t0; lra]|]. destruct (IH ltac:(lia)) as (I1 & I2).
    destruct (nth_error atts k) as [a|] eqn:Ek. 2:{ apply nth_error_None in Ek. lia. }
    pose proof (att_t k a Ek) as Ht. pose proof (att_dt k a Ek) as Hd. pose proof (Rmin_l (dta (firstn k atts)) (t1 - at_t a)).
    rewrite (dt_after_S k a Ek), (time_S k a Ek). rewrite <- Ht in I2. split; [|destruct (at_ok a); lra].
    unfold next_dt. destruct (eo_adaptive opts) eqn:Ea; [|lra]. pose proof (att_err_pos k a Ea Ek) as He. rewrite new_dt_R by exact He.
    pose proof (growth_pos mo _ He). destruct (Rlt_dec 0 (eo_max_dt opts)); [pose proof (Rmin_r (eo_max_dt opts) (at_dt a * growth mo (at_err a)))|]; nra.
  Qed.
End Times.

Section TimesOdeint.
  Context {E : Env R} {LA : LinAlg R} {St : Type}.
  Variables (F : functor R St) (fuel : nat) (t0 t1 : R) (y0 : list R) (opts : erk_options R) (oo : output_options) (m : Z) (dt : R).
  Lemma mo_pos a b : (0 <= Z.min a b mod 2 ^ 64)%Z.
  Proof. apply Z.mod_pos_bound. reflexivity. Qed.

  Lemma clip_pos : (ndebug = false \/ (t0 < t1 /\ 0 < dt)) -> (ndebug = false -> (clip t1 t0 dt >?. sZ 0)%sc = true) -> 0 < clip t1 t0 dt.
  Proof.
    intros [Hn|[H1 H2]] Ha.
    - specialize (Ha Hn). apply Rltb_true in Ha. exact Ha.
    - rewrite clip_R. apply Rmin_glb_lt; lra.
  Qed.

  Lemma erk_times w w' sol : (ndebug = false \/ (t0 < t1 /\ 0 < dt)) -> erk_odeint fuel F t0 t1 y0 opts oo m dt w = (w', Ok sol) ->
    StronglySorted Rlt (eo_t_vals sol) /\ Forall (fun t => t0 <= t <= t1) (eo_t_vals sol) /\
    (eo_status sol = SUCCESS -> last (eo_t_vals sol) t0 = t1).
  Proof.
    intros Hp Hrun.
    destruct (erk_odeint_finished F false (fun _ => []) (fun _ _ _ => eq_refl) _ _ _ _ _ _ _ _ _ _ _ Hrun) as (Ha & sc & a & b & Hm & Hg & Hd & _ & _ & atts & O & A & _ & _ & En).
    pose proof (clip_pos Hp Ha) as Hc.
    destruct (times_prefix t0 t1 _ _ dt atts A Hc (length atts) (le_n _)) as (I1 & I2 & I3 & I4). rewrite firstn_all in * .
    rewrite (ok_t _ _ _ _ _ O). split; [exact I3|]. split; [eapply Forall_impl; [|exact I4]; intros x Hx; simpl in Hx; lra|].
    intros Hs. rewrite last_times. destruct En as [(_ & _ & _ & _ & E5)|(E1 & _)].
    - apply Rltb_false in E5. lra.
    - rewrite E1 in Hs. discriminate.
  Qed.

  Lemma erk_stuck w w' sol : t0 < t1 -> dt <= 0 -> (eo_max_steps opts < 0)%Z -> erk_odeint fuel F t0 t1 y0 opts oo m dt w <> (w', Ok sol).
  Proof.
    intros Hlt Hdt Hms Hrun.
    destruct (erk_odeint_finished F false (fun _ => []) (fun _ _ _ => eq_refl) _ _ _ _ _ _ _ _ _ _ _ Hrun) as (Ha & sc & a & b & Hm & Hg & Hd & _ & _ & atts & O & A & _ & _ & En).
    assert (Hc : clip t1 t0 dt <= 0) by (rewrite clip_R; pose proof (Rmin_l dt (t1 - t0)); lra).
    destruct (stuck_prefix t0 t1 _ _ dt atts A Hc Hlt (length atts) (le_n _)) as (I1 & I2). rewrite firstn_all in * .
    destruct En as [(_ & _ & _ & _ & E5)|(_ & _ & _ & _ & E5 & _)].
    - apply Rltb_false in E5. lra.
    - rewrite eff_max_steps in E5. lia.
  Qed.

  Lemma erk_degenerate w : ndebug = false -> t1 <= t0 \/ dt <= 0 -> erk_odeint fuel F t0 t1 y0 opts oo m dt w = (w, Err EAbort).
  Proof.
    intros Hn Hd. unfold erk_odeint. destruct (erk_get_ok (T := R) m) as (sc & Hg & _ & _). rewrite Hg. unfold bind at 1, lift at 1.
    unfold bind at 1, assert_ at 1. rewrite Hn. destruct (erk_verify_solver_coeffs sc); [|reflexivity]. unfold ret at 1.
    unfold erk_guts, bind at 1, assert_ at 1. fold (clip t1 t0 dt). rewrite Hn. rewrite clip_R.
    assert (Hc : Rmin dt (t1 - t0) <= 0) by (destruct Hd; [pose proof (Rmin_r dt (t1 - t0))|pose proof (Rmin_l dt (t1 - t0))]; lra).
    change (sltb (Scalar := RScalar)) with Rltb. unfold sZ. simpl (slit 0 0).
    replace (Rltb 0 (Rmin dt (t1 - t0))) with false by (symmetry; apply Rltb_false; exact Hc). reflexivity.
  Qed.
  Lemma erk_degenerate_ndebug w : ndebug = true -> t1 <= t0 -> In m explicit_methods ->
    (forall s, exists s' v, f_fun F t0 y0 s = (s', Ok v) /\ length v = length y0) ->
    exists w' sol, erk_odeint fuel F t0 t1 y0 opts oo m dt w = (w', Ok sol) /\ eo_status sol = SUCCESS /\
      eo_t_vals sol = [t0] /\ eo_y_vals sol = [y0] /\ w_out w' = w_out w.
  Proof.
    intros Hn Hle Hm Hf. unfold erk_odeint. destruct (erk_get_ok (T := R) m) as (sc & Hg & _ & Hd). rewrite Hg. unfold bind at 1, lift at 1.
    unfold bind at 1, assert_ at 1. rewrite Hn. unfold ret at 1. unfold erk_guts, bind at 1, assert_ at 1. rewrite Hn. unfold ret at 1.
    destruct (sc_orders m sc Hm Hg) as (p & p2 & _ & _ & Ef). destruct (stages_dim m sc Hm Hd) as (_ & _ & L3).
    rewrite (ef_order _ _ _ _ _ Ef). pose proof (ef_order2 _ _ _ _ _ Ef) as Ho.
    assert (exists b, sc_order2 sc = Some b) as [b ->] by (destruct p2; [destruct Ho as (_ & -> & _)|destruct Ho as (_ & ->)]; eauto).
    unfold bind at 1, lift at 1.
    assert (Hend : forall mo s w, es_t s = t0 -> while (fun s => es_t s <?. t1)%sc (erk_body F t1 (eff_opts opts sc) sc oo mo) fuel s w = (w, Ok (inl s))).
    { intros mo s v Hs. destruct fuel; cbn [while]; rewrite Hs; change (sltb (Scalar := RScalar)) with Rltb;
        (replace (Rltb t0 t1) with false by (symmetry; apply Rltb_false; exact Hle)); reflexivity. }
    fold (eff_opts opts sc).
    destruct (sc_FSAL sc) eqn:Efs.
    - destruct (Hf (w_st w)) as (s' & v & Hv & Lv). unfold bind, in_world, lift, ret. cbv beta. rewrite Hv. unfold mset_col. rewrite mtab_ncols.
      replace (0 <? length (sc_b sc))%nat with true by (symmetry; apply Nat.ltb_lt; exact L3).
      rewrite mtab_nrows, Lv, Nat.eqb_refl. cbn [andb].
      rewrite Hend by reflexivity. eexists _, _. split; [reflexivity|]. simpl. auto.
    - unfold bind at 1, ret at 1. unfold bind at 1. rewrite Hend by reflexivity. unfold ret. eexists _, _. split; [reflexivity|]. simpl. auto.
  Qed.

  (** C29: the attempts of a run, tied to the calls the user's functor receives *)
  Lemma erk_attempts w w' sol : (ndebug = false \/ (t0 < t1 /\ 0 < dt)) ->
    erk_odeint fuel (logged F) t0 t1 y0 opts oo m dt w = (w', Ok sol) ->
    exists sc atts calls, erk_get_coefficients m = Ok sc /\
      (let first := if existsb (Z.eqb m) explicit_fsal then 1%nat else 0%nat in
       snd (w_st w') = snd (w_st w) ++ calls /\
       map call_time calls = repeat t0 first ++ flat_map (stage_times (sc_c sc) first) atts) /\
      eo_t_vals sol = t0 :: map at_end (accepted atts) /\ chained t0 atts /\
      (forall a, nth_error atts 0 = Some a -> at_dt a = Rmin dt (t1 - t0)) /\
      (eo_adaptive opts = true -> In m explicit_embedded ->
         consecutive (fun a b => at_dt b <= 36 / 10 * at_dt a /\ (0 < eo_max_dt opts -> at_dt b <= eo_max_dt opts) /\
                                 (at_ok a = false -> at_dt b < at_dt a)) atts) /\
      (eo_adaptive opts = false \/ ~ In m explicit_embedded -> forall a, In a atts -> at_ok a = true /\ at_dt a = Rmin dt (t1 - at_t a)).
  Proof.
    intros Hp Hrun.
    destruct (erk_odeint_finished (logged F) true snd (fun t y s => logged_log F t y s) _ _ _ _ _ _ _ _ _ _ _ Hrun) as (Ha & sc & a & b & Hm & Hg & Hd & _ & _ & atts & O & A & _ & L & En).
    pose proof (clip_pos Hp Ha) as Hc. destruct (L eq_refl) as (l & L1 & L2 & L3).
    exists sc, atts, l. split; [exact Hg|]. split.
    { destruct (sc_stages_fsal m sc Hm Hg) as [_ Hfs]. cbv zeta. rewrite <- Hfs. split; [exact L1|]. rewrite L3. unfold stage_iter_start. destruct (sc_FSAL sc); reflexivity. }
    split; [exact (ok_t _ _ _ _ _ O)|]. split; [exact (ao_chain _ _ _ _ _ _ A)|]. split.
    { intros x Hx. rewrite (att_dt _ _ _ _ _ _ A 0 x Hx), (att_t _ _ _ _ _ _ A 0 x Hx). cbn [firstn]. change (time_after t0 []) with t0. unfold dt_after. cbn [fold_left]. rewrite clip_R.
      apply Rmin_left, Rmin_r. }
    assert (Hemb : In m explicit_embedded <-> sc_b2 sc <> []).
    { destruct (sc_orders m sc Hm Hg) as (p & p2 & Hin & _ & Ef). pose proof (ef_order2 _ _ _ _ _ Ef) as Ho. pose proof (ef_pos _ _ _ _ _ Ef) as Hps.
      unfold explicit_orders in Hin. simpl In in Hin.
      destruct Hin as [Hi|[Hi|[Hi|[Hi|[Hi|[Hi|[]]]]]]]; injection Hi as Hi1 Hi2 Hi3; rewrite <- Hi3 in Ho; rewrite <- Hi1; (split; [intros Hin|intros Hne]);
        try (exfalso; apply Hne; apply Ho); try (vm_compute in Hin; intuition discriminate); try (simpl; tauto);
        (intros Hz; destruct Ho as (Ho & _); rewrite Hz in Ho; simpl in Ho; lia). }
    split.
    - intros Ead Hin. apply Hemb in Hin.
      assert (Ef : eff_opts opts sc = opts) by (unfold eff_opts; rewrite Ead; destruct (sc_b2 sc); [congruence|reflexivity]).
      rewrite Ef in A. exact (steps_bounds t0 t1 opts _ dt atts A (mo_pos a b) Hc Ead).
    - intros Hfix x Hx.
      assert (Ef : eo_adaptive (eff_opts opts sc) = false).
      { unfold eff_opts. destruct (eo_adaptive opts) eqn:Ead; [|exact Ead]. destruct Hfix as [Hfix|Hfix]; [discriminate|].
        destruct (sc_b2 sc) eqn:Eb; [reflexivity|]. exfalso. apply Hfix, Hemb. congruence. }
      split; [|exact (steps_fixed t0 t1 _ _ dt atts A Ef x Hx)].
      pose proof (ao_ok _ _ _ _ _ _ A) as Hok. rewrite Ef in Hok. rewrite Forall_forall in Hok. exact (Hok x Hx).
  Qed.
End TimesOdeint.
