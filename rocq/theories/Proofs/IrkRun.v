(** A run of the implicit integrator is a sequence of attempts; the output, the file and the call log are determined by it
    (every scalar type, every functor). *)
From Verif Require Import Model.Base Model.Scalar Model.LinAlg Model.Newton Model.Enums Model.Options Model.Coeffs Model.Collocation Model.IrkCoeffs Model.Irk.
From Verif Require Import Spec.Sums Spec.Observe Spec.ErkSpec Spec.NewtonSpec Spec.IrkSpec Spec.Methods.
From Verif Require Import Proofs.LoopProofs Proofs.OrderProofs Proofs.TablesGeneric Proofs.ErkProofs Proofs.ErkRun Proofs.NewtonProofs Proofs.IrkProofs.
Local Open Scope sc_scope.
Local Open Scope mon_scope.

Section Lists.
  Context {T : Type}.
  Lemma every_from_snoc {A} k i (l : list A) a :
    every_from k i (l ++ [a]) = every_from k i l ++ (if (Z.rem (i + Z.of_nat (length l)) k =? 0)%Z then [a] else []).
  Proof.
    revert i. induction l as [|b l IH]; intros i; cbn [app every_from length].
    - rewrite Z.add_0_r, app_nil_r. reflexivity.
    - rewrite IH, <- app_assoc. do 3 f_equal. replace (i + 1 + Z.of_nat (length l))%Z with (i + Z.of_nat (S (length l)))%Z by lia. reflexivity.
  Qed.
  Lemma every_snoc {A} k (l : list A) a :
    every k (l ++ [a]) = every k l ++ (if (Z.rem (Z.of_nat (length l) + 1) k =? 0)%Z then [a] else []).
  Proof. unfold every. rewrite every_from_snoc, (Z.add_comm 1). reflexivity. Qed.
  Lemma every_one {A} (l : list A) : every 1 l = l.
  Proof.
    unfold every. generalize 1%Z at 2. induction l as [|a l IH]; intros i; [reflexivity|]. cbn [every_from]. rewrite Z.rem_1_r. simpl. f_equal. apply IH.
  Qed.
  Lemma every_in {A} k (l : list A) a : In a (every k l) -> In a l.
  Proof.
    unfold every. generalize 1%Z. induction l as [|b l IH]; intros i; [contradiction|]. cbn [every_from]. rewrite in_app_iff.
    intros [Hi|Hi]; [|right; eapply IH, Hi]. destruct (Z.rem i k =? 0)%Z; destruct Hi; [left; assumption|contradiction].
  Qed.
  Lemma ended_snoc o (l : list (iattempt T)) a : ended o (l ++ [a]) = ended o l ++ (if outcome_eqb (ia_out a) o then [a] else []).
  Proof. unfold ended. rewrite filter_app. reflexivity. Qed.
  Lemma outcome_eqb_eq a b : outcome_eqb a b = true <-> a = b.
  Proof. destruct a, b; simpl; split; try discriminate; reflexivity. Qed.
  Lemma ended_in o (l : list (iattempt T)) a : In a (ended o l) <-> In a l /\ ia_out a = o.
  Proof. unfold ended. rewrite filter_In, outcome_eqb_eq. reflexivity. Qed.
  Lemma ended_all (l : list (iattempt T)) :
    length l = (length (ended NewtonFailed l) + length (ended TooInaccurate l) + length (ended Accepted l))%nat.
  Proof. induction l as [|a l IH]; [reflexivity|]. unfold ended in * . cbn [filter length]. rewrite IH. destruct (ia_out a); simpl; lia. Qed.
End Lists.

Section Run.
  Context {T : Type} `{Scalar T} `{LinAlg T} `{Env T} {St : Type}.
  Local Notation W := (world T St).
  Variables (F : functor T St) (t0 t1 : T) (y0 : list T) (opts : irk_options T) (sc : solver_coeffs T) (oo : output_options).
  Variables (nopts : options T) (mo : Z) (dw d2w : list T).
  Variables (out0 : list (T * list T)).
  Variables (logging : bool) (lg : St -> list (call T)) (lg0 : list (call T)).
  Hypothesis Hlogf : logging = true -> forall t y s, lg (fst (f_fun F t y s)) = lg s ++ [CallFun t y].
  Hypothesis Hlogj : logging = true -> forall t y s, lg (fst (f_jac F t y s)) = lg s ++ [CallJac t y].
  Let n := length y0.
  Let ns := length (sc_b sc).
  Hypothesis HA : ncols (sc_A sc) = ns.
  Hypothesis Hc : length (sc_c sc) = ns.
  Hypothesis Hs : (0 < ns)%nat.

  Let body := irk_body F t1 opts sc oo nopts mo dw d2w.
  Let solve_stages (s : irk_state T) (dt : T) := newton_solve_stages F (is_y s) (is_t s) dt sc false true (is_maxit s) (o_refresh_jac nopts) (o_dx_delta nopts) (o_tol nopts).

  Definition limit_hit (s : irk_state T) : bool := (0 <=? io_max_steps opts)%Z && (io_max_steps opts <? is_step s)%Z.
  Definition measure_of (tot : T) (k : nat) : T :=
    let e := ssqrt (tot /. count_up k) in if e <?. machine_precision then machine_precision else e.
  (** a step whose stages were found: the estimate made in world [w1], ending in [w2] *)
  Record estimated (s : irk_state T) (dt : T) (sr : stage_result T) (w1 w2 : W) (yn est : list T) (calls : nat) (err : T) : Prop := {
    em_run : irk_estimate F opts sc dw d2w (is_t s) dt (is_y s) (sr_Y sr) (sr_J sr) (is_alt s) w1 = (w2, Ok (yn, est, calls));
    em_err : exists tot, irk_err_tot opts (is_y s) yn est = Ok tot /\ (ndebug = false -> (tot >=?. slit 0 0) = true) /\ err = measure_of tot (length est) }.

  (** the possible ways through the loop body *)
  Inductive body_case (s : irk_state T) (w : W) : W -> irk_state T + irk_output T -> Prop :=
  | BLimit : limit_hit s = true ->
      let c := io_count (is_sol s) in
      body_case s w w (inr (irk_with_status (with_count (is_sol s)
               (Counters (S (ct_attempt c)) (ct_reject_newton c) (ct_reject_err c) (ct_newton_success c) (ct_newton_incr_diverge c)
                  (ct_newton_iter_error_too_large c) (ct_newton_maxit_exceed c) (ct_fun_evals c) (ct_jac_evals c)))
               ERROR_MAX_STEPS_EXCEEDED))
  | BFail w1 sr : limit_hit s = false -> io_adaptive opts = false ->
      let c := io_count (is_sol s) in
      solve_stages s (clip t1 (is_t s) (is_dt s)) (ct_fun_evals c) (ct_jac_evals c) w = (w1, Ok sr) -> sr_status sr <> Newton.SUCCESS ->
      body_case s w w1 (inr (irk_with_status (with_count (is_sol s)
                   (Counters (S (ct_attempt c)) (ct_reject_newton c) (ct_reject_err c) (ct_newton_success c) (ct_newton_incr_diverge c)
                      (ct_newton_iter_error_too_large c) (ct_newton_maxit_exceed c) (sr_fun sr) (sr_jac sr)))
                   GENERAL_ERROR))
  | BNewton w1 sr maxit relax : limit_hit s = false -> io_adaptive opts = true ->
      let c := io_count (is_sol s) in
      let dt := clip t1 (is_t s) (is_dt s) in
      solve_stages s dt (ct_fun_evals c) (ct_jac_evals c) w = (w1, Ok sr) -> sr_status sr <> Newton.SUCCESS ->
      (if (is_step s - is_relax s >? 15)%Z then int_add (is_maxit s) (o_maxit nopts) = Ok maxit /\ relax = is_step s
       else maxit = is_maxit s /\ relax = is_relax s) ->
      let is k := if (sr_status sr =? k)%Z then 1%nat else 0%nat in
      body_case s w w1 (inl (IrkState (is_t s) (is_y s) (dt *. slit 7 (-1)) (is_step s) (is_alt s) maxit relax (is_dts0 s) (is_dts1 s) (is_err0 s)
                   (with_count (is_sol s)
                     (Counters (S (ct_attempt c)) (S (ct_reject_newton c)) (ct_reject_err c) (ct_newton_success c)
                        (ct_newton_incr_diverge c + is INCREMENT_DIVERGE)
                        (ct_newton_iter_error_too_large c + is ITERATION_ERROR_TOO_LARGE)
                        (ct_newton_maxit_exceed c + is MAXIT_EXCEEDED) (sr_fun sr) (sr_jac sr)))))
  | BReject w1 sr w2 yn est calls err nd : limit_hit s = false -> io_adaptive opts = true ->
      let c := io_count (is_sol s) in
      let dt := clip t1 (is_t s) (is_dt s) in
      solve_stages s dt (ct_fun_evals c) (ct_jac_evals c) w = (w1, Ok sr) -> sr_status sr = Newton.SUCCESS ->
      estimated s dt sr w1 w2 yn est calls err -> (err >?. sZ 1) = true ->
      irk_new_dt opts mo (is_maxit s) (sr_iters sr) err (is_err0 s) (is_dts0 s) (is_dts1 s) dt = Ok nd ->
      body_case s w w2 (inl (IrkState (is_t s) (is_y s) nd (is_step s) true (is_maxit s) (is_relax s) nd (is_dts0 s) err
                   (with_count (is_sol s)
                       (Counters (S (ct_attempt c)) (ct_reject_newton c) (S (ct_reject_err c))
                          (S (ct_newton_success c)) (ct_newton_incr_diverge c) (ct_newton_iter_error_too_large c)
                          (ct_newton_maxit_exceed c) (sr_fun sr + calls) (sr_jac sr)))))
  | BAccept w1 sr w2 yn est calls err nd w3 sol : limit_hit s = false ->
      let c := io_count (is_sol s) in
      let dt := clip t1 (is_t s) (is_dt s) in
      solve_stages s dt (ct_fun_evals c) (ct_jac_evals c) w = (w1, Ok sr) -> sr_status sr = Newton.SUCCESS ->
      estimated s dt sr w1 w2 yn est calls err -> io_adaptive opts && (err >?. sZ 1) = false ->
      irk_new_dt opts mo (is_maxit s) (sr_iters sr) err (is_err0 s) (is_dts0 s) (is_dts1 s) dt = Ok nd ->
      irk_record sc oo (with_count (is_sol s)
                       (Counters (S (ct_attempt c)) (ct_reject_newton c) (ct_reject_err c)
                          (S (ct_newton_success c)) (ct_newton_incr_diverge c) (ct_newton_iter_error_too_large c)
                          (ct_newton_maxit_exceed c) (sr_fun sr + calls) (sr_jac sr))) (is_step s + 1) (is_t s +. dt) yn est err w2 = (w3, Ok sol) ->
      let nd := if io_adaptive opts then nd else dt in
      body_case s w w3 (inl (IrkState (is_t s +. dt) yn nd (is_step s + 1) false (is_maxit s) (is_relax s) nd (is_dts0 s) err sol)).

  Lemma irk_body_inv s w w' x : body s w = (w', Ok x) -> body_case s w w' x.
  Proof.
    unfold body, irk_body. fold (limit_hit s). destruct (limit_hit s) eqn:El.
    { intros Hr. apply ret_ok in Hr. destruct Hr as [-> <-]. apply BLimit. exact El. }
    fold (clip t1 (is_t s) (is_dt s)). intros Hr. apply bind_ok in Hr. destruct Hr as (w1 & sr & Hss & Hr).
    destruct (sr_status sr =? Newton.SUCCESS)%Z eqn:Est; cbn [negb] in Hr.
    - apply Z.eqb_eq in Est. apply bind_ok in Hr. destruct Hr as (w2 & [[yn est] calls] & He & Hr).
      apply bind_ok in Hr. destruct Hr as (w3 & tot & Ht & Hr). apply lift_ok in Ht. destruct Ht as [-> Ht].
      apply bind_ok in Hr. destruct Hr as (w3 & u & Ha & Hr). apply assert_ok in Ha. destruct Ha as [-> Ha].
      apply bind_ok in Hr. destruct Hr as (w3 & nd & Hd & Hr). apply lift_ok in Hd. destruct Hd as [-> Hd].
      fold (measure_of tot (length est)) in Hd, Hr.
      assert (Em : estimated s (clip t1 (is_t s) (is_dt s)) sr w1 w2 yn est calls (measure_of tot (length est))) by (constructor; [exact He|exists tot; auto]).
      destruct (io_adaptive opts && (measure_of tot (length est) >?. sZ 1)) eqn:Erej.
      + apply ret_ok in Hr. destruct Hr as [-> <-]. apply andb_true_iff in Erej. destruct Erej as [Ead Egt]. rewrite Ead.
        eapply BReject; eassumption.
      + apply bind_ok in Hr. destruct Hr as (w3 & sol & Hrec & Hr). apply ret_ok in Hr. destruct Hr as [-> <-]. eapply BAccept; eassumption.
    - apply Z.eqb_neq in Est. destruct (io_adaptive opts) eqn:Ead; cbn [negb] in Hr.
      + apply bind_ok in Hr. destruct Hr as (w2 & [maxit relax] & Hm & Hr). apply ret_ok in Hr. destruct Hr as [-> <-].
        assert (G : w2 = w1 /\ if (is_step s - is_relax s >? 15)%Z then int_add (is_maxit s) (o_maxit nopts) = Ok maxit /\ relax = is_step s
                               else maxit = is_maxit s /\ relax = is_relax s).
        { destruct (is_step s - is_relax s >? 15)%Z.
          - apply bind_ok in Hm. destruct Hm as (w3 & m & Hi & Hm). apply lift_ok in Hi. destruct Hi as [-> Hi]. apply ret_ok in Hm. destruct Hm as [-> [= <- <-]]. auto.
          - apply ret_ok in Hm. destruct Hm as [-> [= <- <-]]. auto. }
        destruct G as [-> G]. eapply BNewton; eassumption.
      + apply ret_ok in Hr. destruct Hr as [-> <-]. eapply BFail; eassumption.
  Qed.

  (** the estimate *)
  Lemma irk_estimate_inv t dt y Y J alt (w w' : W) yn est calls : (0 < length y)%nat ->
    irk_estimate F opts sc dw d2w t dt y Y J alt w = (w', Ok (yn, est, calls)) ->
    length yn = length y /\ length est = length y /\ w_out w' = w_out w /\ calls = (if alt then 2 else 1)%nat /\
    (logging = true -> exists l, lg (w_st w') = lg (w_st w) ++ l /\ count_fun l = calls /\ count_jac l = 0%nat /\ Forall (fun c => call_time c = t) l).
  Proof.
    intros Hn. unfold irk_estimate. intros Hr. apply bind_ok in Hr. destruct Hr as (w1 & dy & Hdy & Hr). apply lift_ok in Hdy. destruct Hdy as [-> Hdy].
    apply bind_ok in Hr. destruct Hr as (w1 & da & Hda & Hr).
    assert (w1 = w) as ->. { destruct (io_adaptive opts); [apply lift_ok in Hda|apply ret_ok in Hda]; apply Hda. }
    apply bind_ok in Hr. destruct Hr as (w1 & f0 & Hf0 & Hr). apply in_world_ok in Hf0. destruct Hf0 as (s1 & Hf0 & ->).
    apply bind_ok in Hr. destruct Hr as (w1 & dya & Hdya & Hr). apply lift_ok in Hdya. destruct Hdya as [-> Hdya].
    apply bind_ok in Hr. destruct Hr as (w1 & yn' & Hyn & Hr). apply lift_ok in Hyn. destruct Hyn as [-> Hyn].
    apply bind_ok in Hr. destruct Hr as (w1 & yp & Hyp & Hr). apply lift_ok in Hyp. destruct Hyp as [-> Hyp].
    apply bind_ok in Hr. destruct Hr as (w1 & dd & Hdd & Hr). apply lift_ok in Hdd. destruct Hdd as [-> Hdd].
    apply bind_ok in Hr. destruct Hr as (w1 & stm & Hst & Hr). apply lift_ok in Hst. destruct Hst as [-> Hst].
    apply bind_ok in Hr. destruct Hr as (w1 & e & He & Hr). apply lift_ok in He. destruct He as [-> He].
    apply vadd_inv in Hyn. destruct Hyn as (_ & _ & Lyn).
    assert (Lst : ncols stm = length y).
    { unfold msub in Hst. destruct (msame _ _) eqn:Em; [|discriminate]. injection Hst as <-. unfold msame in Em. apply andb_true_iff in Em. destruct Em as [_ Em].
      apply Nat.eqb_eq in Em. unfold ncols, mzip in * . cbn [mcols] in * . rewrite map_length, combine_length, <- Em, Nat.min_id.
      unfold eye, mtab. cbn [mcols]. rewrite map_length, seq_length. reflexivity. }
    assert (Le : forall b e, solve stm b = Ok e -> length e = length y).
    { intros b e' Hs'. unfold solve in Hs'. destruct (_ =? _); [|discriminate]. destruct (la_solve stm b); [|discriminate]. injection Hs' as <-. rewrite vtab_length. exact Lst. }
    assert (L1 : logging = true -> lg s1 = lg (w_st w) ++ [CallFun t y]). { intros Hl. specialize (Hlogf Hl t y (w_st w)). rewrite Hf0 in Hlogf. exact Hlogf. }
    destruct alt.
    - apply bind_ok in Hr. destruct Hr as (w1 & arg & Harg & Hr). apply lift_ok in Harg. destruct Harg as [-> Harg].
      apply bind_ok in Hr. destruct Hr as (w1 & f1 & Hf1 & Hr). apply in_world_ok in Hf1. destruct Hf1 as (s2 & Hf1 & ->). cbn [w_st w_out] in * .
      apply bind_ok in Hr. destruct Hr as (w1 & dyaa & Hdyaa & Hr). apply lift_ok in Hdyaa. destruct Hdyaa as [-> Hdyaa].
      apply bind_ok in Hr. destruct Hr as (w1 & ea & Hea & Hr). apply lift_ok in Hea. destruct Hea as [-> Hea].
      apply bind_ok in Hr. destruct Hr as (w1 & e2 & He2 & Hr). apply lift_ok in He2. destruct He2 as [-> He2].
      apply ret_ok in Hr. destruct Hr as [-> Hr]. injection Hr as <- <- <-. cbn [w_st w_out].
      split; [exact Lyn|]. split; [rewrite vscale_length; eapply Le, He2|]. split; [reflexivity|]. split; [reflexivity|].
      intros Hl. exists [CallFun t y; CallFun t arg]. specialize (Hlogf Hl t arg s1). rewrite Hf1 in Hlogf. cbn [fst] in Hlogf. rewrite Hlogf, (L1 Hl), <- app_assoc.
      cbn. repeat split; repeat constructor.
    - apply ret_ok in Hr. destruct Hr as [-> Hr]. injection Hr as <- <- <-. cbn [w_st w_out].
      split; [exact Lyn|]. split; [rewrite vscale_length; eapply Le, He|]. split; [reflexivity|]. split; [reflexivity|].
      intros Hl. exists [CallFun t y]. rewrite (L1 Hl). cbn. repeat split; repeat constructor.
  Qed.

  (** recording *)
  Lemma irk_record_inv sol step t yn est err (w w' : W) sol' : irk_record sc oo sol step t yn est err w = (w', Ok sol') ->
    output_interval oo <> 0%Z /\
    let hit := (Z.rem step (output_interval oo) =? 0)%Z in
    w' = World (w_st w) (w_out w ++ if hit && write_to_file oo then [(t, yn)] else []) /\
    sol' = (if hit && store_in_vectors oo then
              IrkOutput (io_status sol) (io_t_vals sol ++ [t]) (io_y_vals sol ++ [yn]) (io_stages sol ++ [vzeros (length yn * length (sc_b sc))])
                 (io_err_est sol ++ [est]) (io_err sol ++ [err]) (io_elapsed_time sol) (io_accept_frac sol) (io_count sol)
            else sol).
  Proof.
    unfold irk_record. destruct (output_interval oo =? 0)%Z eqn:E0; [discriminate|]. apply Z.eqb_neq in E0. intros Hr. split; [exact E0|]. cbv zeta.
    destruct (Z.rem step (output_interval oo) =? 0)%Z; cbn [andb].
    - apply bind_ok in Hr. destruct Hr as (w1 & u & Hw & Hr). apply ret_ok in Hr. destruct Hr as [-> <-]. split; [|reflexivity].
      destruct (write_to_file oo).
      + destruct (output_stream oo); [|discriminate]. unfold write_line in Hw. injection Hw as <- _. reflexivity.
      + apply ret_ok in Hw. destruct Hw as [-> _]. rewrite app_nil_r. destruct w; reflexivity.
    - apply ret_ok in Hr. destruct Hr as [-> ->]. rewrite app_nil_r. destruct w; auto.
  Qed.

  (** an additional invariant of the loop state *)
  Variable X : irk_state T -> Prop.
  Hypothesis HX : forall s w w' s', X s -> (is_t s <?. t1) = true -> length (is_y s) = n -> body s w = (w', Ok (inl s')) -> X s'.

  Definition last_error (l : list (iattempt T)) : option (iattempt T) := nth_error l (length l - 1).
  Lemma last_error_snoc l a b : last_error (l ++ [a]) = Some b -> b = a.
  Proof. unfold last_error. rewrite app_length. simpl. rewrite nth_error_app2 by lia. replace (_ - _)%nat with 0%nat by lia. cbn. congruence. Qed.
  (** what is known about each attempt *)
  Definition attempt_facts (a : iattempt T) : Prop :=
    exists s, X s /\ is_t s = ia_t a /\ is_y s = ia_y a /\ ia_dt a = clip t1 (is_t s) (is_dt s) /\ (is_t s <?. t1) = true /\ length (is_y s) = n /\
    exists w w1 sr, solve_stages s (ia_dt a) (ct_fun_evals (io_count (is_sol s))) (ct_jac_evals (io_count (is_sol s))) w = (w1, Ok sr) /\
    match ia_out a with
    | NewtonFailed => sr_status sr = MAXIT_EXCEEDED
    | o => sr_status sr = Newton.SUCCESS /\
           exists w2 calls, estimated s (ia_dt a) sr w1 w2 (ia_yn a) (ia_est a) calls (ia_err a) /\
           io_adaptive opts && (ia_err a >?. sZ 1) = outcome_eqb o TooInaccurate
    end.
  Definition stored (atts : list (iattempt T)) : list (iattempt T) :=
    if store_in_vectors oo then every (output_interval oo) (ended Accepted atts) else [].
  Definition lines (atts : list (iattempt T)) : list (T * list T) :=
    if write_to_file oo then map (fun a => (ia_end a, ia_yn a)) (every (output_interval oo) (ended Accepted atts)) else [].

  Record output_ok (atts : list (iattempt T)) (sol : irk_output T) : Prop := {
    oo_t : io_t_vals sol = t0 :: map ia_end (stored atts);
    oo_y : io_y_vals sol = y0 :: map ia_yn (stored atts);
    oo_stages : io_stages sol = repeat (vzeros (n * ns)) (S (length (stored atts)));
    oo_est : io_err_est sol = vzeros n :: map ia_est (stored atts);
    oo_err : io_err sol = slit 0 0 :: map ia_err (stored atts);
    oo_newton : ct_reject_newton (io_count sol) = length (filter (fun a => outcome_eqb (ia_out a) NewtonFailed) atts);
    oo_maxit : ct_newton_maxit_exceed (io_count sol) = ct_reject_newton (io_count sol);
    oo_incr : ct_newton_incr_diverge (io_count sol) = 0%nat;
    oo_iter : ct_newton_iter_error_too_large (io_count sol) = 0%nat;
    oo_rej : ct_reject_err (io_count sol) = length (ended TooInaccurate atts);
    oo_succ : ct_newton_success (io_count sol) = (length (ended TooInaccurate atts) + length (ended Accepted atts))%nat }.
  (** how the step size follows from an attempt *)
  Definition step_sizes (s s' : irk_state T) (a : iattempt T) : Prop :=
    ia_dt a = clip t1 (is_t s) (is_dt s) /\
    match ia_out a with
    | NewtonFailed => is_dt s' = ia_dt a *. slit 7 (-1)
    | _ => if io_adaptive opts then exists iters, (1 <= iters < is_maxit s)%Z /\
             irk_new_dt opts mo (is_maxit s) iters (ia_err a) (is_err0 s) (is_dts0 s) (is_dts1 s) (ia_dt a) = Ok (is_dt s')
           else is_dt s' = ia_dt a
    end.
  Variable dt0 : T.
  Record attempts_ok (atts : list (iattempt T)) : Prop := {
    ao_chain : ichained t0 y0 atts;
    ao_facts : Forall attempt_facts atts;
    ao_limit : (0 <= io_max_steps opts)%Z -> (Z.of_nat (length (ended Accepted atts)) <= io_max_steps opts + 1)%Z;
    ao_dim : Forall (fun a => length (ia_y a) = n /\ (ia_out a <> NewtonFailed -> length (ia_yn a) = n /\ length (ia_est a) = n)) atts;
    ao_interval : ended Accepted atts <> [] -> output_interval oo <> 0%Z;
    ao_next : consecutive (fun a b => exists s s', X s /\ step_sizes s s' a /\ ia_dt b = clip t1 (ia_t b) (is_dt s')) atts;
    ao_first : forall a, nth_error atts 0 = Some a -> ia_dt a = clip t1 t0 dt0 }.
  Definition log_ok (atts : list (iattempt T)) (w : W) (f j : nat) : Prop :=
    logging = true -> exists l, lg (w_st w) = lg0 ++ l /\ count_fun l = f /\ count_jac l = j /\
      Forall (fun c => exists a, In a atts /\ (call_time c = ia_t a \/ exists k, (k < ns)%nat /\ call_time c = ia_t a +. nth k (sc_c sc) (sZ 0) *. ia_dt a)) l.

  Record run_inv (atts : list (iattempt T)) (w : W) (s : irk_state T) : Prop := {
    ri_status : io_status (is_sol s) = SUCCESS;
    ri_elapsed : io_elapsed_time (is_sol s) = None;
    ri_frac : io_accept_frac (is_sol s) = None;
    ri_attempt : ct_attempt (io_count (is_sol s)) = length atts;
    ri_out : output_ok atts (is_sol s);
    ri_atts : attempts_ok atts;
    ri_step : is_step s = Z.of_nat (length (ended Accepted atts));
    ri_t : is_t s = itime_after t0 atts;
    ri_y : is_y s = istate_after y0 atts;
    ri_ylen : length (is_y s) = n;
    ri_file : w_out w = out0 ++ lines atts;
    ri_log : log_ok atts w (ct_fun_evals (io_count (is_sol s))) (ct_jac_evals (io_count (is_sol s)));
    ri_X : X s;
    ri_next : forall a, last_error atts = Some a -> exists s0, X s0 /\ step_sizes s0 s a;
    ri_first : atts = [] -> is_dt s = dt0 /\ is_t s = t0 }.

  Lemma log_step atts w w1 a f j f' j' : log_ok atts w f j ->
    (logging = true -> exists l, lg (w_st w1) = lg (w_st w) ++ l /\ (f' = f + count_fun l)%nat /\ (j' = j + count_jac l)%nat /\
       Forall (fun c => call_time c = ia_t a \/ exists k, (k < ns)%nat /\ call_time c = ia_t a +. nth k (sc_c sc) (sZ 0) *. ia_dt a) l) ->
    log_ok (atts ++ [a]) w1 f' j'.
  Proof.
    intros HL HN Hl. destruct (HL Hl) as (l & L1 & L2 & L3 & L4). destruct (HN Hl) as (l' & N1 & N2 & N3 & N4). exists (l ++ l').
    rewrite N1, L1, app_assoc, count_fun_app, count_jac_app. repeat split; try lia. apply Forall_app. split.
    - eapply Forall_impl; [|exact L4]. cbv beta. intros c (b & Hb1 & Hb2). exists b. split; [apply in_or_app; left; exact Hb1|exact Hb2].
    - eapply Forall_impl; [|exact N4]. cbv beta. intros c Hc'. exists a. split; [apply in_or_app; right; left; reflexivity|exact Hc'].
  Qed.

  Lemma chain_snoc atts a : ichained t0 y0 atts -> ia_t a = itime_after t0 atts -> ia_y a = istate_after y0 atts -> ichained t0 y0 (atts ++ [a]).
  Proof.
    intros Hch H1' H2'. unfold ichained. apply (snoc_all (fun l a => ia_t a = itime_after t0 l /\ ia_y a = istate_after y0 l)); [exact Hch|auto].
  Qed.

  Lemma stored_snoc atts a : stored (atts ++ [a]) = stored atts ++
    (if outcome_eqb (ia_out a) Accepted && (Z.rem (Z.of_nat (length (ended Accepted atts)) + 1) (output_interval oo) =? 0)%Z && store_in_vectors oo then [a] else []).
  Proof.
    unfold stored. rewrite ended_snoc. destruct (store_in_vectors oo); [|rewrite andb_false_r; reflexivity]. rewrite andb_true_r.
    destruct (outcome_eqb (ia_out a) Accepted); cbn [andb]; [apply every_snoc|rewrite !app_nil_r; reflexivity].
  Qed.
  Lemma lines_snoc atts a : lines (atts ++ [a]) = lines atts ++
    (if outcome_eqb (ia_out a) Accepted && (Z.rem (Z.of_nat (length (ended Accepted atts)) + 1) (output_interval oo) =? 0)%Z && write_to_file oo then [(ia_end a, ia_yn a)] else []).
  Proof.
    unfold lines. rewrite ended_snoc. destruct (write_to_file oo); [|rewrite andb_false_r; reflexivity]. rewrite andb_true_r.
    destruct (outcome_eqb (ia_out a) Accepted); cbn [andb]; [rewrite every_snoc, map_app|rewrite !app_nil_r; reflexivity].
    destruct (_ =? 0)%Z; reflexivity.
  Qed.

  Lemma attempts_snoc atts s a : attempts_ok atts -> is_step s = Z.of_nat (length (ended Accepted atts)) -> is_t s = itime_after t0 atts -> is_y s = istate_after y0 atts ->
    limit_hit s = false -> ia_t a = is_t s -> ia_y a = is_y s -> length (is_y s) = n -> attempt_facts a ->
    (ia_out a <> NewtonFailed -> length (ia_yn a) = n /\ length (ia_est a) = n) -> (ia_out a = Accepted -> output_interval oo <> 0%Z) ->
    ia_dt a = clip t1 (is_t s) (is_dt s) -> (forall a, last_error atts = Some a -> exists s0, X s0 /\ step_sizes s0 s a) -> (atts = [] -> is_dt s = dt0 /\ is_t s = t0) ->
    attempts_ok (atts ++ [a]).
  Proof.
    intros [C1 C2 C3 C4 C5 C6 C7] Hst Ht Hy Hl Ha1 Ha2 Hyl Hf Hd Hint Hdt Hnx Hfi. constructor.
    - apply chain_snoc; [exact C1|congruence|congruence].
    - apply Forall_app. split; [exact C2|]. constructor; [exact Hf|constructor].
    - intros H0'. unfold limit_hit in Hl. rewrite ended_snoc, app_length. apply andb_false_iff in Hl. rewrite Z.leb_gt, Z.ltb_ge in Hl.
      destruct (outcome_eqb (ia_out a) Accepted); simpl length; destruct Hl; lia.
    - apply Forall_app. split; [exact C4|]. constructor; [split; [congruence|exact Hd]|constructor].
    - rewrite ended_snoc. destruct (outcome_eqb (ia_out a) Accepted) eqn:E; [intros _; apply Hint, outcome_eqb_eq, E|rewrite app_nil_r; exact C5].
    - intros k u v Hu Hv. destruct (Nat.lt_ge_cases (S k) (length atts)) as [Hk|Hk].
      + rewrite nth_error_app1 in Hu, Hv by lia. apply (C6 k); assumption.
      + assert (Hk2 : S k = length atts). { assert (S k < length (atts ++ [a]))%nat by (apply nth_error_Some; congruence). rewrite app_length in * . simpl in * . lia. }
        rewrite nth_error_app1 in Hu by lia. rewrite nth_error_app2 in Hv by lia. replace (S k - length atts)%nat with 0%nat in Hv by lia. injection Hv as <-.
        destruct (Hnx u) as (s0 & X0 & S0). { unfold last_error. rewrite <- Hk2. replace (S k - 1)%nat with k by lia. exact Hu. }
        exists s0, s. split; [exact X0|]. split; [exact S0|]. rewrite Ha1. exact Hdt.
    - intros b Hb. destruct atts as [|x l]; [|apply C7; exact Hb]. injection Hb as <-. destruct (Hfi eq_refl) as [E1 E2]. rewrite Hdt, E1, E2. reflexivity.
  Qed.

  (** the stage solver on behalf of the loop *)
  Lemma stages_calls s a f j w w1 sr : ia_t a = is_t s -> solve_stages s (ia_dt a) f j w = (w1, Ok sr) ->
    (0 < length (is_y s))%nat /\ w_out w1 = w_out w /\ (sr_status sr = Newton.SUCCESS \/ sr_status sr = MAXIT_EXCEEDED) /\
    (sr_status sr = Newton.SUCCESS -> 1 <= sr_iters sr < is_maxit s)%Z /\
    (logging = true -> exists l, lg (w_st w1) = lg (w_st w) ++ l /\ (sr_fun sr = f + count_fun l)%nat /\ (sr_jac sr = j + count_jac l)%nat /\
       Forall (fun c => call_time c = ia_t a \/ exists k, (k < ns)%nat /\ call_time c = ia_t a +. nth k (sc_c sc) (sZ 0) *. ia_dt a) l).
  Proof.
    intros Ha Hr. destruct (newton_solve_stages_inv F (is_y s) (is_t s) (ia_dt a) sc logging lg Hlogf Hlogj false true _ _ _ _ HA Hc Hs _ _ _ _ _ Hr) as (v0 & V & D).
    destruct D as [_ D1 _ _ _ _ D2 _ [D3 D4]]. split; [exact D1|]. split; [exact D3|]. split; [destruct D2 as [[E _]|[E _]]; auto|].
    split. { intros Es. destruct D2 as [(_ & V0 & E1 & E2 & _)|[E _]]; [|rewrite E in Es; discriminate]. destruct V; [congruence|]. simpl length in E1. lia. }
    rewrite Ha. exact D4.
  Qed.

  Lemma run_step atts w s w' s' : run_inv atts w s -> (is_t s <?. t1) = true -> body s w = (w', Ok (inl s')) -> exists a, run_inv (atts ++ [a]) w' s'.
  Proof.
    intros I Hlt Hb. pose proof (ri_X _ _ _ I) as IX. destruct I as [I1 I2 I3 I4 IO IA I6 I7 I8 I9 I10 I11 _ I13 I14].
    pose proof (HX _ _ _ _ IX Hlt I9 Hb) as IX'. apply irk_body_inv in Hb. inversion Hb as [| |w1 sr maxit relax El Ead c dt Hss Hst Hm isk EQw EQs|w1 sr w2 yn est calls err nd El Ead c dt Hss Hst Hem Hgt Hnd EQw EQs|
      w1 sr w2 yn est calls err nd w3 sol El c dt Hss Hst Hem Hgt Hnd Hrec nd' EQw EQs]; clear Hb.
    - set (a := IAttempt (is_t s) dt (is_y s) NewtonFailed [] [] (sZ 0)). exists a.
      destruct (stages_calls s a _ _ _ _ _ eq_refl Hss) as (Hn0 & Ho & Hsta & Hit & Hcl).
      assert (Hmx : sr_status sr = MAXIT_EXCEEDED) by (destruct Hsta; [contradiction|assumption]).
      assert (Hf : attempt_facts a).
      { exists s. repeat (split; [assumption || reflexivity|]). exists w, w', sr. split; [exact Hss|exact Hmx]. }
      assert (NA : attempts_ok (atts ++ [a])) by (apply (attempts_snoc _ s a); try assumption; try reflexivity; cbn [a ia_out]; congruence).
      subst w1 s'. destruct IO as [O1 O2 O3 O4 O5 O6 O7 O8 O9 O10 O11].
      assert (Es : stored (atts ++ [a]) = stored atts) by (rewrite stored_snoc; cbn [a ia_out outcome_eqb andb]; apply app_nil_r).
      assert (Eacc : ended Accepted (atts ++ [a]) = ended Accepted atts) by (rewrite ended_snoc; apply app_nil_r).
      assert (Erej : ended TooInaccurate (atts ++ [a]) = ended TooInaccurate atts) by (rewrite ended_snoc; apply app_nil_r).
      constructor; cbn [is_t is_y is_dt is_step is_sol with_count io_status io_elapsed_time io_accept_frac io_count ct_attempt ct_fun_evals ct_jac_evals]; try assumption.
      + unfold c. rewrite app_length, I4. simpl. lia.
      + constructor; cbn [with_count io_t_vals io_y_vals io_stages io_err_est io_err io_count ct_reject_newton ct_newton_maxit_exceed ct_newton_incr_diverge
                        ct_newton_iter_error_too_large ct_reject_err ct_newton_success]; rewrite ?Es, ?Eacc, ?Erej; try assumption.
        * rewrite filter_app, app_length. cbn [filter a ia_out outcome_eqb length]. rewrite <- O6. unfold c. lia.
        * unfold isk, c. rewrite Hmx. simpl. rewrite O7. lia.
        * unfold isk, c. rewrite Hmx. simpl. rewrite O8. reflexivity.
        * unfold isk, c. rewrite Hmx. simpl. rewrite O9. reflexivity.
      + rewrite Eacc. exact I6.
      + unfold itime_after. rewrite Eacc. exact I7.
      + unfold istate_after. rewrite Eacc. exact I8.
      + rewrite Ho, I10, lines_snoc. cbn [a ia_out outcome_eqb andb]. rewrite app_nil_r. reflexivity.
      + eapply log_step; [exact I11|exact Hcl].
      + intros b Hb. apply last_error_snoc in Hb. subst b. exists s. split; [exact IX|]. split; reflexivity.
      + intros E. destruct atts; discriminate.
    - set (a := IAttempt (is_t s) dt (is_y s) TooInaccurate yn est err). exists a.
      destruct (stages_calls s a _ _ _ _ _ eq_refl Hss) as (Hn0 & Ho & Hsta & Hit & Hcl).
      destruct Hem as [Hem Herr]. destruct (irk_estimate_inv _ _ _ _ _ _ _ _ _ _ _ Hn0 Hem) as (Ly & Le & Ho2 & Ecalls & Hcl2).
      assert (Hf : attempt_facts a).
      { exists s. repeat (split; [assumption || reflexivity|]). exists w, w1, sr. split; [exact Hss|]. cbn [a ia_out ia_yn ia_est ia_err ia_dt]. split; [exact Hst|].
        exists w', calls. split; [constructor; assumption|]. rewrite Ead, Hgt. reflexivity. }
      assert (NA : attempts_ok (atts ++ [a])).
      { apply (attempts_snoc _ s a); try assumption; try reflexivity; cbn [a ia_out ia_yn ia_est]; [intros _; split; congruence|discriminate]. }
      subst w2 s'. destruct IO as [O1 O2 O3 O4 O5 O6 O7 O8 O9 O10 O11].
      assert (Es : stored (atts ++ [a]) = stored atts) by (rewrite stored_snoc; cbn [a ia_out outcome_eqb andb]; apply app_nil_r).
      assert (Eacc : ended Accepted (atts ++ [a]) = ended Accepted atts) by (rewrite ended_snoc; apply app_nil_r).
      assert (Erej : length (ended TooInaccurate (atts ++ [a])) = S (length (ended TooInaccurate atts))) by (rewrite ended_snoc, app_length; simpl; lia).
      constructor; cbn [is_t is_y is_dt is_step is_sol with_count io_status io_elapsed_time io_accept_frac io_count ct_attempt ct_fun_evals ct_jac_evals]; try assumption.
      + unfold c. rewrite app_length, I4. simpl. lia.
      + constructor; cbn [with_count io_t_vals io_y_vals io_stages io_err_est io_err io_count ct_reject_newton ct_newton_maxit_exceed ct_newton_incr_diverge
                        ct_newton_iter_error_too_large ct_reject_err ct_newton_success]; rewrite ?Es, ?Eacc, ?Erej; try assumption.
        * rewrite filter_app, app_length. cbn [filter a ia_out outcome_eqb length]. rewrite <- O6. unfold c. lia.
        * rewrite <- O10. reflexivity.
        * unfold c. rewrite O11. lia.
      + rewrite Eacc. exact I6.
      + unfold itime_after. rewrite Eacc. exact I7.
      + unfold istate_after. rewrite Eacc. exact I8.
      + rewrite Ho2, Ho, I10, lines_snoc. cbn [a ia_out outcome_eqb andb]. rewrite app_nil_r. reflexivity.
      + eapply log_step; [exact I11|]. intros Hl. destruct (Hcl Hl) as (l & L1 & L2 & L3 & L4). destruct (Hcl2 Hl) as (l' & M1 & M2 & M3 & M4).
        exists (l ++ l'). rewrite M1, L1, app_assoc, count_fun_app, count_jac_app. unfold c in *; repeat split; try lia. apply Forall_app. split; [exact L4|].
        eapply Forall_impl; [|exact M4]. intros x Hx. left. exact Hx.
      + intros b Hb. apply last_error_snoc in Hb. subst b. exists s. split; [exact IX|]. split; [reflexivity|]. cbn [a ia_out ia_err ia_dt is_dt]. rewrite Ead. exists (sr_iters sr). split; [apply Hit, Hst|exact Hnd].
      + intros E. destruct atts; discriminate.
    - set (a := IAttempt (is_t s) dt (is_y s) Accepted yn est err). exists a.
      destruct (stages_calls s a _ _ _ _ _ eq_refl Hss) as (Hn0 & Ho & Hsta & Hit & Hcl).
      destruct Hem as [Hem Herr]. destruct (irk_estimate_inv _ _ _ _ _ _ _ _ _ _ _ Hn0 Hem) as (Ly & Le & Ho2 & Ecalls & Hcl2).
      assert (Hf : attempt_facts a).
      { exists s. repeat (split; [assumption || reflexivity|]). exists w, w1, sr. split; [exact Hss|]. cbn [a ia_out ia_yn ia_est ia_err ia_dt]. split; [exact Hst|].
        exists w2, calls. split; [constructor; assumption|]. rewrite Hgt. reflexivity. }
      apply irk_record_inv in Hrec. destruct Hrec as (Hint & Hw3 & Hsol). cbv zeta in Hw3, Hsol.
      assert (NA : attempts_ok (atts ++ [a])).
      { apply (attempts_snoc _ s a); try assumption; try reflexivity; cbn [a ia_out ia_yn ia_est]; [intros _; split; congruence|intros _; exact Hint]. }
      subst w3 s'. destruct IO as [O1 O2 O3 O4 O5 O6 O7 O8 O9 O10 O11].
      assert (Eacc : ended Accepted (atts ++ [a]) = ended Accepted atts ++ [a]) by (rewrite ended_snoc; reflexivity).
      assert (Erej : ended TooInaccurate (atts ++ [a]) = ended TooInaccurate atts) by (rewrite ended_snoc; apply app_nil_r).
      rewrite I6 in Hsol, Hw3.
      assert (Ecnt : io_count sol = Counters (S (ct_attempt c)) (ct_reject_newton c) (ct_reject_err c)
                          (S (ct_newton_success c)) (ct_newton_incr_diverge c) (ct_newton_iter_error_too_large c)
                          (ct_newton_maxit_exceed c) (sr_fun sr + calls) (sr_jac sr) /\ io_status sol = io_status (is_sol s) /\ io_elapsed_time sol = io_elapsed_time (is_sol s) /\
                     io_accept_frac sol = io_accept_frac (is_sol s)).
      { subst sol. destruct (_ && _); auto. }
      destruct Ecnt as (Ec & Esta & Eel & Efr).
      assert (NO : output_ok (atts ++ [a]) sol).
      { set (hs := (Z.rem (Z.of_nat (length (ended Accepted atts)) + 1) (output_interval oo) =? 0)%Z && store_in_vectors oo) in * .
        assert (Es : stored (atts ++ [a]) = stored atts ++ (if hs then [a] else [])) by (rewrite stored_snoc; reflexivity).
        constructor; rewrite ?Ec, ?Erej, ?Eacc, ?Es;
          cbn [ct_reject_newton ct_newton_maxit_exceed ct_newton_incr_diverge ct_newton_iter_error_too_large ct_reject_err ct_newton_success].
        - rewrite Hsol. destruct hs; cbn [io_t_vals with_count]; rewrite O1; [rewrite map_app|rewrite app_nil_r]; reflexivity.
        - rewrite Hsol. destruct hs; cbn [io_y_vals with_count]; rewrite O2; [rewrite map_app|rewrite app_nil_r]; reflexivity.
        - rewrite Hsol. destruct hs; cbn [io_stages with_count]; rewrite O3; [|rewrite app_nil_r; reflexivity].
          rewrite Ly, I9. fold ns. rewrite app_length. simpl length. rewrite Nat.add_1_r. symmetry. apply repeat_cons.
        - rewrite Hsol. destruct hs; cbn [io_err_est with_count]; rewrite O4; [rewrite map_app|rewrite app_nil_r]; reflexivity.
        - rewrite Hsol. destruct hs; cbn [io_err with_count]; rewrite O5; [rewrite map_app|rewrite app_nil_r]; reflexivity.
        - rewrite filter_app, app_length. cbn [filter a ia_out outcome_eqb length]. rewrite <- O6. unfold c. lia.
        - exact O7.
        - exact O8.
        - exact O9.
        - exact O10.
        - rewrite app_length. simpl. unfold c. rewrite O11. lia. }
      assert (NF : w_out w' = out0 ++ lines (atts ++ [a])).
      { rewrite Hw3. cbn [w_out]. rewrite Ho2, Ho, I10, lines_snoc, <- app_assoc. reflexivity. }
      assert (NL : log_ok (atts ++ [a]) w' (sr_fun sr + calls) (sr_jac sr)).
      { eapply log_step; [exact I11|]. intros Hl. destruct (Hcl Hl) as (l & L1 & L2 & L3 & L4). destruct (Hcl2 Hl) as (l' & M1 & M2 & M3 & M4).
        exists (l ++ l'). rewrite Hw3. cbn [w_st]. rewrite M1, L1, app_assoc, count_fun_app, count_jac_app. unfold c in * . repeat split; try lia.
        apply Forall_app. split; [exact L4|]. eapply Forall_impl; [|exact M4]. intros x Hx. left. exact Hx. }
      constructor; cbn [is_t is_y is_dt is_step is_sol]; rewrite ?Ec, ?Esta, ?Eel, ?Efr, ?Eacc; try assumption.
      + cbn [ct_attempt]. rewrite app_length. unfold c. rewrite I4. simpl. lia.
      + rewrite app_length, I6. simpl. lia.
      + unfold itime_after. rewrite Eacc, map_app; cbn [map]; rewrite last_snoc. reflexivity.
      + unfold istate_after. rewrite Eacc, map_app; cbn [map]; rewrite last_snoc. reflexivity.
      + congruence.
      + intros b Hb. apply last_error_snoc in Hb. subst b. exists s. split; [exact IX|]. split; [reflexivity|]. cbn [a ia_out ia_err ia_dt is_dt]. unfold nd'.
        destruct (io_adaptive opts); [|reflexivity]. exists (sr_iters sr). split; [apply Hit, Hst|exact Hnd].
      + intros E. destruct atts; discriminate.
  Qed.

  (** how a run can end *)
  Definition finished (w' : W) (sol : irk_output T) : Prop :=
    exists atts, output_ok (if (io_status sol =? GENERAL_ERROR)%Z then removelast atts else atts) sol /\ attempts_ok atts /\ w_out w' = out0 ++ lines atts /\
    log_ok atts w' (ct_fun_evals (io_count sol)) (ct_jac_evals (io_count sol)) /\
    ((io_status sol = SUCCESS /\ ct_attempt (io_count sol) = length atts /\ io_elapsed_time sol = Some clock /\
      io_accept_frac sol = Some (sZ (Z.of_nat (length (ended Accepted atts))) /. sZ (Z.of_nat (length atts))) /\
      (itime_after t0 atts <?. t1) = false) \/
     (io_status sol = ERROR_MAX_STEPS_EXCEEDED /\ ct_attempt (io_count sol) = S (length atts) /\ io_elapsed_time sol = None /\
      io_accept_frac sol = None /\ (0 <= io_max_steps opts)%Z /\
      Z.of_nat (length (ended Accepted atts)) = (io_max_steps opts + 1)%Z /\ (itime_after t0 atts <?. t1) = true) \/
     (io_status sol = GENERAL_ERROR /\ ct_attempt (io_count sol) = length atts /\ io_elapsed_time sol = None /\ io_accept_frac sol = None /\
      io_adaptive opts = false /\ (itime_after t0 atts <?. t1) = true /\
      exists atts' a, atts = atts' ++ [a] /\ ia_out a = NewtonFailed /\ ended NewtonFailed atts' = [])).

  Definition final (r : irk_state T + irk_output T) : irk_output T :=
    match r with
    | inr sol => sol
    | inl s => let sol := is_sol s in
        IrkOutput (io_status sol) (io_t_vals sol) (io_y_vals sol) (io_stages sol) (io_err_est sol) (io_err sol)
                       (Some clock) (Some (sZ (is_step s) /. sZ (Z.of_nat (ct_attempt (io_count sol))))) (io_count sol)
    end.


  Lemma run_loop fuel w s w' r : run_inv [] w s ->
    while (fun s => is_t s <?. t1) body fuel s w = (w', Ok r) -> finished w' (final r).
  Proof.
    intros I0 Hw.
    assert (WI : match r with inl s' => (exists atts, run_inv atts w' s' /\ (io_adaptive opts = false -> ended NewtonFailed atts = [])) /\ (is_t s' <?. t1) = false | inr sol => finished w' sol end).
    { refine (while_inv (fun s => is_t s <?. t1) body (fun w s => exists atts, run_inv atts w s /\ (io_adaptive opts = false -> ended NewtonFailed atts = []))
                (fun w sol => finished w sol) fuel s w w' r _ _ _ Hw).
      - intros v s1 v' s1' [atts [I NFl]] Hlt Hb. destruct (run_step _ _ _ _ _ I Hlt Hb) as [a I']. exists (atts ++ [a]). split; [exact I'|].
        intros Ead. rewrite ended_snoc, (NFl Ead). destruct (outcome_eqb (ia_out a) NewtonFailed) eqn:Eo; [|reflexivity]. exfalso.
        apply outcome_eqb_eq in Eo. destruct I' as [_ _ _ _ IO' _ _ _ _ _ _ _ _ _ _]. pose proof (oo_newton _ _ IO') as E.
        rewrite filter_app, app_length in E. cbn [filter] in E. rewrite Eo in E. cbn [outcome_eqb length] in E.
        destruct I as [_ _ _ _ IO _ _ _ _ _ _ _ _ _ _]. pose proof (oo_newton _ _ IO) as E0.
        apply irk_body_inv in Hb. inversion Hb as [| |? ? ? ? ? Ead'|? ? ? ? ? ? ? ? ? Ead'|w1 sr w2 yn est calls err nd w3 sol El c dt Hss Hst Hem Hgt Hnd Hrec nd' EQw EQs]; try congruence.
        apply irk_record_inv in Hrec. destruct Hrec as (_ & _ & Hsol). cbv zeta in Hsol. subst s1'. cbn [is_sol] in E.
        assert (ct_reject_newton (io_count sol) = ct_reject_newton (io_count (is_sol s1))) by (subst sol; destruct (_ && _); reflexivity). lia.
      - intros v s1 v' sol [atts [I NFl]] Hlt Hb. apply irk_body_inv in Hb. destruct I as [I1 I2 I3 I4 IO IA I6 I7 I8 I9 I10 I11 IX I13 I14].
        inversion Hb as [El c EQw EQs|w1 sr El Ead c Hss Hst EQw EQs| | |]; clear Hb.
        + subst v' sol. exists atts. cbn [io_status irk_with_status with_count io_count ct_fun_evals ct_jac_evals]. change (ERROR_MAX_STEPS_EXCEEDED =? GENERAL_ERROR)%Z with false. cbv iota.
          split; [destruct IO; constructor; assumption|]. split; [exact IA|]. split; [exact I10|]. split; [exact I11|].
          right. left. unfold limit_hit in El. rewrite andb_true_iff, Z.leb_le, Z.ltb_lt in El. destruct El as [Hl1 Hl2].
          cbn [io_elapsed_time io_accept_frac ct_attempt]. unfold c. rewrite I4. repeat split; try assumption.
          * destruct IA as [_ _ L _ _ _ _]. specialize (L Hl1). lia.
          * rewrite <- I7. exact Hlt.
        + set (a := IAttempt (is_t s1) (clip t1 (is_t s1) (is_dt s1)) (is_y s1) NewtonFailed [] [] (sZ 0)).
          destruct (stages_calls s1 a _ _ _ _ _ eq_refl Hss) as (Hn0 & Ho & Hsta & Hit & Hcl).
          assert (Hmx : sr_status sr = MAXIT_EXCEEDED) by (destruct Hsta; [contradiction|assumption]).
          assert (Hf : attempt_facts a).
          { exists s1. repeat (split; [assumption || reflexivity|]). exists v, v', sr. split; [exact Hss|exact Hmx]. }
          assert (NA : attempts_ok (atts ++ [a])) by (apply (attempts_snoc _ s1 a); try assumption; try reflexivity; cbn [a ia_out]; congruence).
          subst w1 sol. exists (atts ++ [a]). cbn [io_status irk_with_status with_count io_count ct_fun_evals ct_jac_evals io_elapsed_time io_accept_frac ct_attempt].
          rewrite Z.eqb_refl, removelast_last.
          split; [destruct IO; constructor; assumption|]. split; [exact NA|].
          split; [rewrite Ho, I10, lines_snoc; cbn [a ia_out outcome_eqb andb]; rewrite app_nil_r; reflexivity|].
          split; [eapply log_step; [exact I11|exact Hcl]|].
          right. right. unfold c. rewrite I4, app_length. cbn [length]. rewrite Nat.add_1_r. repeat split; try assumption.
          * unfold itime_after. rewrite ended_snoc. cbn [a ia_out outcome_eqb]. rewrite app_nil_r. fold (itime_after t0 atts). rewrite <- I7. exact Hlt.
          * exists atts, a. split; [reflexivity|]. split; [reflexivity|apply NFl, Ead].
      - exists []. split; [exact I0|reflexivity]. }
    destruct r as [s'|sol]; [|exact WI]. destruct WI as [[atts [I NFl]] Hlt].
    destruct I as [I1 I2 I3 I4 IO IA I6 I7 I8 I9 I10 I11 IX I13 I14]. exists atts.
    cbn [final io_status io_count io_elapsed_time io_accept_frac]. rewrite I1. change (SUCCESS =? GENERAL_ERROR)%Z with false. cbv iota.
    split; [destruct IO; constructor; assumption|]. split; [exact IA|]. split; [exact I10|]. split; [exact I11|]. left.
    rewrite I6, I4. repeat split; try assumption. rewrite <- I7. exact Hlt.
  Qed.
End Run.
