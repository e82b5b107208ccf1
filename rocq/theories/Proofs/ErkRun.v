(** A run of the explicit integrator is a sequence of attempts; the output, the file and the call log are determined by it
    (every scalar type, every functor). *)
From Verif Require Import Model.Base Model.Scalar Model.LinAlg Model.Enums Model.Options Model.Coeffs Model.ErkCoeffs Model.Erk.
From Verif Require Import Spec.Observe Spec.ErkSpec Spec.Methods Proofs.LoopProofs Proofs.OrderProofs Proofs.TablesGeneric Proofs.ErkProofs.
Local Open Scope sc_scope.
Local Open Scope mon_scope.

Lemma snoc_all {A} (Q : list A -> A -> Prop) l x :
  (forall k a, nth_error l k = Some a -> Q (firstn k l) a) -> Q l x ->
  forall k a, nth_error (l ++ [x]) k = Some a -> Q (firstn k (l ++ [x])) a.
Proof.
  intros Hl Hx k a Hk. destruct (Nat.lt_ge_cases k (length l)) as [Hlt|Hge].
  - rewrite nth_error_app1 in Hk by exact Hlt. rewrite firstn_app. replace (k - length l)%nat with 0%nat by lia.
    simpl. rewrite app_nil_r. apply Hl, Hk.
  - assert (k = length l) as ->.
    { assert (k < length (l ++ [x]))%nat by (apply nth_error_Some; congruence). rewrite app_length in *; simpl in *; lia. }
    rewrite nth_error_app2, Nat.sub_diag in Hk by lia. simpl in Hk. injection Hk as <-.
    rewrite firstn_app, Nat.sub_diag, firstn_all. simpl. rewrite app_nil_r. exact Hx.
Qed.
Lemma accepted_snoc {T} l (a : attempt T) : accepted (l ++ [a]) = accepted l ++ (if at_ok a then [a] else []).
Proof. unfold accepted. rewrite filter_app. simpl. destruct (at_ok a); reflexivity. Qed.
Lemma rejected_snoc {T} l (a : attempt T) : rejected (l ++ [a]) = rejected l ++ (if at_ok a then [] else [a]).
Proof. unfold rejected. rewrite filter_app. simpl. destruct (at_ok a); reflexivity. Qed.
Lemma accepted_rejected {T} (l : list (attempt T)) : (length (accepted l) + length (rejected l) = length l)%nat.
Proof. induction l as [|a l IH]; [reflexivity|]. unfold accepted, rejected in * . simpl. destruct (at_ok a); simpl; lia. Qed.
Lemma time_after_snoc {T} `{Scalar T} t0 l (a : attempt T) :
  time_after t0 (l ++ [a]) = if at_ok a then at_end a else time_after t0 l.
Proof. unfold time_after. rewrite fold_left_app. reflexivity. Qed.
Lemma last_times {T} `{Scalar T} (t0 : T) atts : last (t0 :: map at_end (accepted atts)) t0 = time_after t0 atts.
Proof.
  induction atts as [|x l IH] using rev_ind; [reflexivity|]. rewrite accepted_snoc, time_after_snoc.
  destruct (at_ok x); [|rewrite app_nil_r; exact IH]. rewrite map_app. simpl map.
  change (t0 :: map at_end (accepted l) ++ [at_end x]) with ((t0 :: map at_end (accepted l)) ++ [at_end x]). apply last_last.
Qed.
Lemma last_snoc {A} (l : list A) x d : last (l ++ [x]) d = x.
Proof. apply last_last. Qed.
Lemma map_combine_fst {A B C} (f : A -> C) (l : list A) (l' : list B) : length l = length l' ->
  map (fun p => f (fst p)) (combine l l') = map f l.
Proof. revert l'. induction l as [|a l IH]; intros [|b l'] Hl; simpl in *; try lia; auto. rewrite IH by lia. reflexivity. Qed.

Section Run.
  Context {T : Type} `{Scalar T} `{LinAlg T} `{Env T} {St : Type}.
  Local Notation W := (world T St).
  Variables (F : functor T St) (t0 t1 : T) (y0 : list T) (opts : erk_options T) (sc : solver_coeffs T) (oo : output_options) (mo : Z).
  Variables (dt0 : T) (out0 : list (T * list T)).
  Variables (logging : bool) (lg : St -> list (call T)) (lg0 : list (call T)).
  Hypothesis Hlog : forall t y s, lg (fst (f_fun F t y s)) = if logging then lg s ++ [CallFun t y] else lg s.
  Let n := length y0.
  Let ns := length (sc_b sc).
  Let start := stage_iter_start sc.
  Hypothesis Hns : (0 < ns)%nat.
  Hypothesis Hc : length (sc_c sc) = ns.

  Definition next_dt (a : attempt T) : T := if eo_adaptive opts then erk_new_dt opts mo (at_err a) (at_dt a) else at_dt a.
  Definition dt_after (l : list (attempt T)) : T := fold_left (fun _ a => next_dt a) l (clip t1 t0 dt0).
  Definition file_lines (l : list (attempt T)) : list (T * list T) :=
    if write_to_file oo then map (fun a => (at_t a, at_yn a)) l else [].

  (** the output as determined by the attempts so far *)
  Record output_ok (atts : list (attempt T)) (sol : erk_output T) : Prop := {
    ok_rej : eo_reject_err sol = length (rejected atts);
    ok_evals : eo_fun_evals sol = (start + length atts * (ns - start))%nat;
    ok_t : eo_t_vals sol = t0 :: map at_end (accepted atts);
    ok_y : eo_y_vals sol = y0 :: map at_yn (accepted atts);
    ok_err : eo_err sol = slit 0 0 :: map at_err (accepted atts);
    ok_stages : length (eo_stages sol) = S (length (accepted atts));
    ok_est : length (eo_err_est sol) = S (length (accepted atts));
    ok_ydim : Forall (fun y => length y = n) (eo_y_vals sol);
    ok_sdim : Forall (fun k => length k = (ns * n)%nat) (eo_stages sol);
    ok_edim : Forall (fun e => length e = n) (eo_err_est sol)
  }.
  (** the attempts themselves *)
  Record attempts_ok (atts : list (attempt T)) : Prop := {
    ao_chain : chained t0 atts;
    ao_dts : forall k a, nth_error atts k = Some a -> at_dt a = clip t1 (at_t a) (dt_after (firstn k atts));
    ao_ok : Forall (fun a => at_ok a = if eo_adaptive opts then negb (at_err a >=?. sZ 1) else true) atts;
    ao_before : Forall (fun a => (at_t a <?. t1) = true) atts;
    ao_limit : (0 <= eo_max_steps opts)%Z -> (Z.of_nat (length (accepted atts)) <= eo_max_steps opts + 1)%Z;
    ao_err : eo_adaptive opts = true ->
      Forall (fun a => exists e, at_err a = if e <?. machine_precision then machine_precision else e) atts
  }.
  Definition log_ok (atts : list (attempt T)) (w : W) : Prop :=
    logging = true -> exists l, lg (w_st w) = lg0 ++ l /\ forallb is_fun l = true /\
      map call_time l = (if sc_FSAL sc then [t0] else []) ++ flat_map (stage_times (sc_c sc) start) atts.

  Record run_inv (atts : list (attempt T)) (w : W) (s : erk_state T) : Prop := {
    ri_status : eo_status (es_sol s) = SUCCESS;
    ri_elapsed : eo_elapsed_time (es_sol s) = None;
    ri_frac : eo_accept_frac (es_sol s) = None;
    ri_attempt : eo_attempt (es_sol s) = length atts;
    ri_out : output_ok atts (es_sol s);
    ri_atts : attempts_ok atts;
    ri_step : es_step s = Z.of_nat (length (accepted atts));
    ri_t : es_t s = time_after t0 atts;
    ri_y : es_y s = last (eo_y_vals (es_sol s)) y0;
    ri_dt : es_dt s = dt_after atts;
    ri_Ks : mdim (es_Ks s) n ns;
    ri_est : length (es_err_est s) = n;
    ri_ylen : length (es_y s) = n;
    ri_file : w_out w = out0 ++ file_lines atts;
    ri_log : log_ok atts w
  }.

  Lemma start_le : (start <= ns)%nat.
  Proof. unfold start, stage_iter_start. destruct (sc_FSAL sc); lia. Qed.

  Lemma fsal_hook_dim Ks Ks' : mdim Ks n ns -> fsal_hook sc Ks = Ok Ks' -> mdim Ks' n ns.
  Proof.
    intros Hd. unfold fsal_hook. destruct (sc_FSAL sc); [|intros [= <-]; exact Hd]. intros Hk. apply rbind_ok in Hk.
    destruct Hk as (k & _ & Hs). eapply mset_col_dim; eassumption.
  Qed.

  Lemma run_step atts w s w' s' w1 Ks evals dy yn err est rej nd : run_inv atts w s -> (es_t s <?. t1) = true ->
    attempted F t1 opts sc oo mo s w w' s' w1 Ks evals dy yn err est rej nd ->
    run_inv (atts ++ [Attempt (es_t s) (clip t1 (es_t s) (es_dt s)) yn err (negb rej)]) w' s'.
  Proof.
    intros I Hlt A. destruct I as [I1 I2 I3 I4 IO IA I6 I7 I8 I9 I10 I11 I12 I13 I14].
    destruct A as [Alim Aloop Ady Ayn Actl Awr Anext].
    pose proof (stages_loop_inv F sc logging lg Hlog n _ _ _ _ _ _ _ _ _ I10 start_le Aloop) as [SD SE SO SK _ SL]. cbn [fst snd] in * .
    apply mv_inv in Ady. destruct Ady as (_ & _ & Ldy). destruct SD as (SD1 & SD2 & SD3).
    apply vadd_inv in Ayn. destruct Ayn as (Lyn & _ & Lyn'). rewrite vscale_length in Lyn.
    assert (Lest : length est = n).
    { destruct (eo_adaptive opts).
      - destruct Actl as (dalt & tot & Hm & Ld & -> & _). rewrite vscale_length, zipwith_length by exact Ld. congruence.
      - destruct Actl as (_ & -> & _). exact I11. }
    assert (Ak : at_ok (Attempt (es_t s) (clip t1 (es_t s) (es_dt s)) yn err (negb rej)) =
                 if eo_adaptive opts then negb (err >=?. sZ 1) else true).
    { cbn [at_ok]. destruct (eo_adaptive opts).
      - destruct Actl as (_ & _ & _ & _ & _ & _ & _ & _ & -> & _). reflexivity.
      - destruct Actl as (_ & _ & -> & _). reflexivity. }
    assert (And : nd = next_dt (Attempt (es_t s) (clip t1 (es_t s) (es_dt s)) yn err (negb rej))).
    { unfold next_dt. cbn [at_err at_dt]. destruct (eo_adaptive opts).
      - destruct Actl as (_ & _ & _ & _ & _ & _ & _ & _ & _ & ->). reflexivity.
      - destruct Actl as (_ & _ & _ & ->). reflexivity. }
    set (a := Attempt (es_t s) (clip t1 (es_t s) (es_dt s)) yn err (negb rej)) in * .
    assert (Hlimit : (0 <= eo_max_steps opts)%Z -> (Z.of_nat (length (accepted (atts ++ [a]))) <= eo_max_steps opts + 1)%Z).
    { intros H0'. unfold limit_hit in Alim. rewrite accepted_snoc, app_length. apply andb_false_iff in Alim.
      rewrite Z.leb_gt, Z.ltb_ge in Alim. destruct (at_ok a); simpl length; destruct Alim; lia. }
    assert (NA : attempts_ok (atts ++ [a])).
    { destruct IA as [C1 C2 C3 C4 C5 C6]. constructor.
      - unfold chained. apply (snoc_all (fun l a => at_t a = time_after t0 l)); [exact C1|exact I7].
      - apply (snoc_all (fun l a => at_dt a = clip t1 (at_t a) (dt_after l))); [exact C2|]. cbn [at_dt at_t a]. rewrite I9. reflexivity.
      - apply Forall_app. split; [exact C3|]. constructor; [exact Ak|constructor].
      - apply Forall_app. split; [exact C4|]. constructor; [exact Hlt|constructor].
      - exact Hlimit.
      - intros Ead. apply Forall_app. split; [exact (C6 Ead)|]. constructor; [|constructor]. rewrite Ead in Actl.
        destruct Actl as (dalt & tot & _ & _ & _ & _ & _ & He & _). exists (ssqrt (tot /. sZ (Z.of_nat (length (es_y s))))). exact He. }
    assert (NL : log_ok (atts ++ [a]) w1).
    { intros Hl. destruct (I14 Hl) as (l & L1 & L2 & L3). rewrite Hl in SL. destruct SL as (ys & Ly & SL).
      eexists. split; [rewrite SL, L1, <- app_assoc; reflexivity|]. split.
      - rewrite forallb_app, L2. simpl. rewrite forallb_forall. intros c Hin. apply in_map_iff in Hin. destruct Hin as (p & <- & _). reflexivity.
      - rewrite map_app, L3, <- app_assoc. f_equal. rewrite flat_map_app. f_equal. simpl. rewrite app_nil_r.
        unfold stage_times. cbn [at_t at_dt a]. rewrite map_map. cbn [call_time]. rewrite Hc.
        rewrite (map_combine_fst (fun i => es_t s +. nth i (sc_c sc) (sZ 0) *. clip t1 (es_t s) (es_dt s))) by (rewrite seq_length; symmetry; exact Ly).
        reflexivity. }
    assert (NF : w_out w' = out0 ++ file_lines (atts ++ [a])).
    { subst w'. cbn [w_out]. rewrite SO, I13, <- app_assoc. f_equal. unfold file_lines, file_line. destruct (write_to_file oo); [|reflexivity].
      rewrite map_app. reflexivity. }
    assert (Eevals : evals = (start + length (atts ++ [a]) * (ns - start))%nat).
    { destruct IO as [_ E _ _ _ _ _ _ _ _]. fold start in SE. fold ns in SE. rewrite SE, E, app_length. simpl. lia. }
    assert (Wst : w_st w' = w_st w1) by (subst w'; reflexivity).
    assert (NL' : log_ok (atts ++ [a]) w') by (unfold log_ok; rewrite Wst; exact NL).
    assert (Hdt : forall l, dt_after (l ++ [a]) = nd) by (intros l; unfold dt_after; rewrite fold_left_app; simpl; symmetry; exact And).
    destruct IO as [O1 O2 O3 O4 O5 O6 O7 O8 O9 O10].
    cbv zeta in Anext. destruct rej.
    - subst s'. constructor; cbn [es_t es_y es_dt es_step es_Ks es_err es_err_est es_sol eo_status eo_elapsed_time eo_accept_frac eo_attempt with_counts eo_y_vals];
        try assumption.
      + rewrite app_length, I4. simpl. lia.
      + constructor; cbn [eo_reject_err eo_fun_evals eo_t_vals eo_y_vals eo_err eo_stages eo_err_est with_counts];
          rewrite ?accepted_snoc, ?rejected_snoc; cbn [at_ok a negb]; rewrite ?app_nil_r; try assumption.
        rewrite app_length, O1. simpl. lia.
      + rewrite accepted_snoc. cbn [at_ok a negb]. rewrite app_nil_r. exact I6.
      + rewrite time_after_snoc. cbn [at_ok a negb]. exact I7.
      + symmetry. apply Hdt.
      + repeat split; assumption.
    - destruct Anext as (Ks' & Hhook & ->).
      constructor; cbn [es_t es_y es_dt es_step es_Ks es_err es_err_est es_sol eo_status eo_elapsed_time eo_accept_frac eo_attempt with_counts erk_record eo_y_vals];
        try assumption.
      + rewrite app_length, I4. simpl. lia.
      + constructor; cbn [eo_reject_err eo_fun_evals eo_t_vals eo_y_vals eo_err eo_stages eo_err_est with_counts erk_record];
          rewrite ?accepted_snoc, ?rejected_snoc; cbn [at_ok a negb]; rewrite ?app_nil_r, ?map_app, ?app_length; try assumption.
        * rewrite Eevals, app_length. reflexivity.
        * rewrite O3. reflexivity.
        * rewrite O4. reflexivity.
        * rewrite O5. reflexivity.
        * rewrite O6. simpl. lia.
        * rewrite O7. simpl. lia.
        * apply Forall_app. split; [exact O8|]. constructor; [congruence|constructor].
        * apply Forall_app. split; [exact O9|]. constructor; [|constructor]. apply vectorise_length. repeat split; assumption.
        * apply Forall_app. split; [exact O10|]. constructor; [exact Lest|constructor].
      + rewrite accepted_snoc, app_length. cbn [at_ok a negb]. simpl. lia.
      + rewrite time_after_snoc. reflexivity.
      + rewrite last_snoc. reflexivity.
      + symmetry. apply Hdt.
      + eapply fsal_hook_dim; [|exact Hhook]. repeat split; assumption.
      + congruence.
  Qed.

  (** what a finished run looks like *)
  Definition finished (w' : W) (sol : erk_output T) : Prop :=
    exists atts, output_ok atts sol /\ attempts_ok atts /\ w_out w' = out0 ++ file_lines atts /\ log_ok atts w' /\
    ((eo_status sol = SUCCESS /\ eo_attempt sol = length atts /\ eo_elapsed_time sol = Some clock /\
      eo_accept_frac sol = Some (sZ (Z.of_nat (length (accepted atts))) /. sZ (Z.of_nat (length atts))) /\
      (time_after t0 atts <?. t1) = false) \/
     (eo_status sol = ERROR_MAX_STEPS_EXCEEDED /\ eo_attempt sol = S (length atts) /\ eo_elapsed_time sol = None /\
      eo_accept_frac sol = None /\ (0 <= eo_max_steps opts)%Z /\
      Z.of_nat (length (accepted atts)) = (eo_max_steps opts + 1)%Z /\ (time_after t0 atts <?. t1) = true)).

  Lemma run_loop fuel w s w' r : run_inv [] w s ->
    while (fun s => es_t s <?. t1) (erk_body F t1 opts sc oo mo) fuel s w = (w', Ok r) ->
    finished w' (match r with
          | inr sol => sol
          | inl s => let sol := es_sol s in
              ErkOutput (eo_status sol) (eo_t_vals sol) (eo_y_vals sol) (eo_stages sol) (eo_err_est sol) (eo_err sol)
                         (Some clock) (Some (sZ (es_step s) /. sZ (Z.of_nat (eo_attempt sol))))
                         (eo_attempt sol) (eo_reject_err sol) (eo_fun_evals sol)
          end).
  Proof.
    intros I0 Hw.
    pose proof (while_inv (fun s => es_t s <?. t1) (erk_body F t1 opts sc oo mo)
       (fun w s => exists atts, run_inv atts w s)
       (fun w sol => finished w sol) fuel s w w' r) as WI.
    assert (Hr : match r with inl s' => (exists atts, run_inv atts w' s') /\ (es_t s' <?. t1) = false | inr sol => finished w' sol end).
    { apply WI; [| |exists []; exact I0|exact Hw].
      - intros v s1 v' s1' [atts I] Hlt Hb. apply erk_body_inl in Hb. destruct Hb as (w1 & Ks & ev & dy & yn & err & est & rej & nd & A).
        eexists. eapply run_step; eassumption.
      - intros v s1 v' sol [atts I] Hlt Hb. apply erk_body_inr in Hb. destruct Hb as (-> & Hl & ->).
        destruct I as [I1 I2 I3 I4 IO IA I6 I7 I8 I9 I10 I11 I12 I13 I14]. exists atts.
        split; [destruct IO; constructor; assumption|]. split; [exact IA|]. split; [exact I13|]. split; [exact I14|].
        right. unfold limit_hit in Hl. rewrite andb_true_iff, Z.leb_le, Z.ltb_lt in Hl. destruct Hl as [Hl1 Hl2].
        cbn [eo_status eo_attempt eo_elapsed_time eo_accept_frac with_status with_counts].
        rewrite I4. repeat split; try assumption.
        + destruct IA as [_ _ _ _ L _]. specialize (L Hl1). lia.
        + rewrite <- I7. exact Hlt. }
    destruct r as [s'|sol]; [|exact Hr]. destruct Hr as [[atts I] Hlt].
    destruct I as [I1 I2 I3 I4 IO IA I6 I7 I8 I9 I10 I11 I12 I13 I14]. exists atts.
    split; [destruct IO; constructor; assumption|]. split; [exact IA|]. split; [exact I13|]. split; [exact I14|]. left.
    cbn [eo_status eo_attempt eo_elapsed_time eo_accept_frac]. rewrite I6, I4. repeat split; try assumption. rewrite <- I7. exact Hlt.
  Qed.
End Run.

Section Odeint.
  Context {T : Type} `{Scalar T} `{LinAlg T} `{Env T} {St : Type}.
  Local Notation W := (world T St).
  Variables (F : functor T St).
  Variables (logging : bool) (lg : St -> list (call T)).
  Hypothesis Hlog : forall t y s, lg (fst (f_fun F t y s)) = if logging then lg s ++ [CallFun t y] else lg s.

  Lemma init_run t1 opts sc oo t0 y0 dt mo w w0 Ks0 : (0 < length (sc_b sc))%nat ->
    (if sc_FSAL sc then exists k, in_world (f_fun F t0 y0) w = (w0, Ok k) /\ mset_col (junk_stages sc y0) 0 k = Ok Ks0
     else w0 = w /\ Ks0 = junk_stages sc y0) ->
    run_inv t0 t1 y0 opts sc oo mo dt (w_out w) logging lg (lg (w_st w)) [] w0
      (ErkState t0 y0 (clip t1 t0 dt) 0 Ks0 (slit 0 0) (vzeros (length y0)) (init_sol t0 y0 (junk_stages sc y0) (stage_iter_start sc))).
  Proof.
    intros Hns Hf.
    pose proof (mtab_dim (length y0) (length (sc_b sc)) (fun _ _ : nat => junk (T := T))) as Hj. fold (junk_stages sc y0) in Hj.
    assert (G : mdim Ks0 (length y0) (length (sc_b sc)) /\ w_out w0 = w_out w /\
                log_ok t0 sc logging lg (lg (w_st w)) [] w0).
    { unfold log_ok. destruct (sc_FSAL sc) eqn:Ef.
      - destruct Hf as (k & Hk & Hs). apply in_world_ok in Hk. destruct Hk as (s' & Hk & ->).
        split; [eapply mset_col_dim; eassumption|]. split; [reflexivity|]. intros Hl. specialize (Hlog t0 y0 (w_st w)). rewrite Hk, Hl in Hlog.
        exists [CallFun t0 y0]. simpl in * . auto.
      - destruct Hf as [-> ->]. split; [exact Hj|]. split; [reflexivity|]. intros Hl. exists []. rewrite app_nil_r. auto. }
    destruct G as (G1 & G2 & G3).
    constructor; cbn [es_t es_y es_dt es_step es_Ks es_err es_err_est es_sol eo_status eo_elapsed_time eo_accept_frac eo_attempt init_sol eo_y_vals]; auto.
    - constructor; cbn [eo_reject_err eo_fun_evals eo_t_vals eo_y_vals eo_err eo_stages eo_err_est init_sol]; auto.
      + rewrite Nat.add_0_r. reflexivity.
      + constructor; [|constructor]. apply vectorise_length, Hj.
      + constructor; [|constructor]. apply repeat_length.
    - constructor; auto.
      + intros k x Hk. destruct k; discriminate.
      + intros k x Hk. destruct k; discriminate.
      + simpl. lia.
    - apply repeat_length.
    - unfold file_lines. destruct (write_to_file oo); rewrite app_nil_r; exact G2.
  Qed.

  Lemma erk_guts_finished t1 opts sc oo fuel t0 y0 dt w w' sol : (0 < length (sc_b sc))%nat -> length (sc_c sc) = length (sc_b sc) ->
    erk_guts F t1 opts sc oo fuel t0 y0 dt w = (w', Ok sol) ->
    (ndebug = false -> (clip t1 t0 dt >?. sZ 0) = true) /\
    exists a b, sc_order sc = Some a /\ sc_order2 sc = Some b /\
    finished t0 t1 y0 opts sc oo (Z.min a b mod 2 ^ 64) dt (w_out w) logging lg (lg (w_st w)) w' sol.
  Proof.
    intros Hns Hc Hr. apply erk_guts_inv in Hr. destruct Hr as (Ha & a & b & Oa & Ob & w0 & Ks0 & Hf & r & Hw & ->).
    split; [exact Ha|]. exists a, b. split; [exact Oa|]. split; [exact Ob|].
    eapply (run_loop F); [exact Hlog|exact Hns|exact Hc| |exact Hw]. apply init_run; assumption.
  Qed.

  Lemma erk_odeint_finished fuel t0 t1 y0 opts oo m dt w w' sol : erk_odeint fuel F t0 t1 y0 opts oo m dt w = (w', Ok sol) ->
    (ndebug = false -> (clip t1 t0 dt >?. sZ 0) = true) /\
    exists sc a b, In m explicit_methods /\ erk_get_coefficients m = Ok sc /\ dims_ok sc (erk_stages m) = true /\
    sc_order sc = Some a /\ sc_order2 sc = Some b /\
    finished t0 t1 y0 (eff_opts opts sc) sc oo (Z.min a b mod 2 ^ 64) dt (w_out w) logging lg (lg (w_st w)) w' sol.
  Proof.
    intros Hr. apply erk_odeint_inv in Hr. destruct Hr as (Hm & sc & Hg & Hd & Hr).
    destruct (stages_dim m sc Hm Hd) as (L1 & L2 & L3).
    apply erk_guts_finished in Hr; [|exact L3|congruence]. destruct Hr as (Ha & a & b & Oa & Ob & Hf).
    split; [exact Ha|]. exists sc, a, b. auto 10.
  Qed.
End Odeint.
