(** What a caller of irk::odeint can rely on, in every arithmetic. *)
From Verif Require Import Model.Base Model.Scalar Model.LinAlg Model.Newton Model.Enums Model.Options Model.Coeffs Model.Collocation Model.IrkCoeffs Model.Irk.
From Verif Require Import Spec.Sums Spec.Observe Spec.ErkSpec Spec.NewtonSpec Spec.IrkSpec Spec.Methods.
From Verif Require Import Proofs.LoopProofs Proofs.OrderProofs Proofs.CollocationGeneric Proofs.TablesGeneric Proofs.ErkProofs Proofs.ErkRun Proofs.NewtonProofs Proofs.IrkProofs Proofs.IrkRun Proofs.IrkGeneric.
Local Open Scope sc_scope.
Local Open Scope mon_scope.

Section Results.
  Context {T : Type} `{Scalar T} `{LinAlg T} `{Env T} {St : Type}.
  Local Notation W := (world T St).
  Variables (F : functor T St) (fuel : nat) (t0 t1 : T) (y0 : list T) (opts : irk_options T) (oo : output_options) (m : Z) (dt : T).

  Lemma finished_plain (w w' : W) sol : irk_odeint fuel F t0 t1 y0 opts oo m dt w = (w', Ok sol) ->
    exists sc nopts mo dw d2w, irk_started t0 t1 opts m dt sc nopts mo dw d2w /\
      finished F t0 t1 y0 opts sc oo nopts mo dw d2w (w_out w) false (fun _ => []) [] (fun _ => True) (clip t1 t0 dt) w' sol.
  Proof.
    intros Hr. refine (irk_odeint_finished F false (fun _ => []) _ _ (fun _ _ _ _ _ _ _ => True) fuel t0 t1 y0 opts oo m dt w w' sol _ Hr); try discriminate.
    intros; split; auto.
  Qed.

  Lemma started_stages u0 u1 o mm d sc nopts mo dw d2w (Hst : irk_started u0 u1 o mm d sc nopts mo dw d2w) y t h maxit rf xt Rt f0 j0 (w w' : W) sr :
    newton_solve_stages F y t h sc false true maxit rf xt Rt f0 j0 w = (w', Ok sr) ->
    exists v0 V, stage_done F y t h sc false (fun _ => []) false true maxit xt Rt w w' f0 j0 sr v0 V.
  Proof.
    destruct (dims_of sc _ (st_dims _ _ _ _ _ _ _ _ _ _ Hst)) as (L1 & L2 & L3 & L4 & _).
    intros Hr. refine (newton_solve_stages_inv F y t h sc false (fun _ => []) _ _ false true maxit rf xt Rt _ _ _ w w' f0 j0 sr Hr); try discriminate; unfold ncols; try congruence.
    rewrite L1. apply irk_stages_pos, (st_method _ _ _ _ _ _ _ _ _ _ Hst).
  Qed.

  (** without step size control no step is ever completed *)
  Lemma estimate_adaptive sc dw d2w t h y Y J alt (w w' : W) r : (0 < length y)%nat ->
    irk_estimate F opts sc dw d2w t h y Y J alt w = (w', Ok r) -> io_adaptive opts = true.
  Proof.
    intros Hn Hr. destruct (io_adaptive opts) eqn:Ead; [reflexivity|]. exfalso. unfold irk_estimate in Hr. rewrite Ead in Hr.
    apply bind_ok in Hr. destruct Hr as (w1 & dy & Hdy & Hr). apply lift_ok in Hdy. destruct Hdy as [-> Hdy].
    apply bind_ok in Hr. destruct Hr as (w1 & da & Hda & Hr). apply ret_ok in Hda. destruct Hda as [-> <-].
    apply bind_ok in Hr. destruct Hr as (w1 & f0 & Hf0 & Hr).
    apply bind_ok in Hr. destruct Hr as (w2 & dya & Hdya & Hr). apply lift_ok in Hdya. destruct Hdya as [-> Hdya].
    apply bind_ok in Hr. destruct Hr as (w2 & yn' & Hyn & Hr). apply bind_ok in Hr. destruct Hr as (w3 & yp & Hyp & Hr). apply lift_ok in Hyp. destruct Hyp as [_ Hyp].
    apply vadd_inv in Hdya. destruct Hdya as (E1 & _ & E2). rewrite vscale_length in E1, E2. cbn in E1. apply vadd_inv in Hyp. destruct Hyp as (E3 & _). lia.
  Qed.

  Lemma nonadaptive_fails X sc nopts mo dw d2w a : irk_started t0 t1 opts m dt sc nopts mo dw d2w -> io_adaptive opts = false ->
    attempt_facts F t1 y0 opts sc nopts dw d2w X a -> ia_out a = NewtonFailed.
  Proof.
    intros Hst Ead (s & _ & _ & _ & _ & _ & Hl & v & v1 & sr & Hss & Hm).
    destruct (ia_out a) eqn:Eb; [reflexivity| |]; exfalso;
      destruct Hm as (_ & v2 & calls & [Em _] & _);
      destruct (started_stages _ _ _ _ _ _ _ _ _ _ Hst _ _ _ _ _ _ _ _ _ _ _ _ Hss) as (v0 & V & D);
      destruct D as [_ Hd _ _ _ _ _ _ _];
      apply (estimate_adaptive _ _ _ _ _ _ _ _ _ _ _ _ Hd) in Em; congruence.
  Qed.

  Section Run.
    Variables (w w' : W) (sol : irk_output T).
    Hypothesis Hrun : irk_odeint fuel F t0 t1 y0 opts oo m dt w = (w', Ok sol).

    Lemma irk_method : In m implicit_methods /\ m <> IMPLICIT_EULER /\ m <> GAUSS_LEGENDRE_147 /\ m <> LOBATTO_IIIA_127.
    Proof.
      destruct (finished_plain _ _ _ Hrun) as (sc & nopts & mo & dw & d2w & Hst & _).
      destruct Hst as [S1 S2 S3 _ _ _ _ _ _ _]. split; [exact S1|]. unfold has_orders, has_b2 in * . rewrite negb_true_iff in S2, S3. rewrite orb_false_iff, !Z.eqb_neq in S2. rewrite Z.eqb_neq in S3. tauto.
    Qed.

    (** the trajectory behind an output *)
    Definition trajectory (atts : list (iattempt T)) : Prop :=
      ichained t0 y0 atts /\
      Forall (fun a => (ia_t a <?. t1) = true /\ length (ia_y a) = length y0 /\
                       (ia_out a <> NewtonFailed -> length (ia_yn a) = length y0 /\ length (ia_est a) = length y0)) atts.

    Lemma irk_aligned :
      exists atts, trajectory atts /\
        (ct_newton_success (io_count sol) = ct_reject_err (io_count sol) + length (ended Accepted atts))%nat /\
        let kept := if store_in_vectors oo then every (output_interval oo) (ended Accepted atts) else [] in
        io_t_vals sol = t0 :: map ia_end kept /\ io_y_vals sol = y0 :: map ia_yn kept /\
        io_err_est sol = vzeros (length y0) :: map ia_est kept /\ io_err sol = slit 0 0 :: map ia_err kept /\
        (exists sc, irk_get_coefficients m = Ok sc /\ io_stages sol = repeat (vzeros (length y0 * length (sc_b sc))) (S (length kept))) /\
        w_out w' = w_out w ++ (if write_to_file oo then map (fun a => (ia_end a, ia_yn a)) (every (output_interval oo) (ended Accepted atts)) else []) /\
        (ended Accepted atts <> [] -> output_interval oo <> 0%Z).
    Proof.
      destruct (finished_plain _ _ _ Hrun) as (sc & nopts & mo & dw & d2w & Hst & atts & O & A & Fl & _ & E).
      set (atts' := if (io_status sol =? GENERAL_ERROR)%Z then removelast atts else atts) in O.
      assert (Eacc : ended Accepted atts' = ended Accepted atts /\ ended TooInaccurate atts' = ended TooInaccurate atts).
      { unfold atts'. destruct E as [(E1 & _)|[(E1 & _)|(E1 & _ & _ & _ & _ & _ & a' & a & -> & E2 & _)]]; rewrite E1; try (split; reflexivity).
        rewrite Z.eqb_refl, removelast_last, !ended_snoc, E2. cbn. rewrite !app_nil_r. auto. }
      destruct Eacc as [Eacc Erej].
      exists atts. destruct A as [A1 A2 A3 A4 A5 _ _]. split.
      { split; [exact A1|]. rewrite Forall_forall in * . intros a Ha. specialize (A4 a Ha). destruct (A2 a Ha) as (s & _ & B1 & _ & _ & B2 & _). rewrite B1 in B2. tauto. }
      destruct O as [O1 O2 O3 O4 O5 O6 O7 O8 O9 O10 O11]. rewrite Erej in O10, O11. rewrite Eacc in O11. unfold stored in * . rewrite Eacc in O1, O2, O3, O4, O5.
      split; [lia|]. cbv zeta. repeat (split; [assumption|]). split; [|split; [exact Fl|exact A5]].
      exists sc. split; [exact (st_sc _ _ _ _ _ _ _ _ _ _ Hst)|]. rewrite O3. reflexivity.
    Qed.

    Lemma irk_accounting :
      let c := io_count sol in
      let acc := (ct_newton_success c - ct_reject_err c)%nat in
      (ct_reject_err c <= ct_newton_success c)%nat /\ ct_reject_newton c = ct_newton_maxit_exceed c /\ ct_newton_incr_diverge c = 0%nat /\ ct_newton_iter_error_too_large c = 0%nat /\
      (output_interval oo = 1%Z -> store_in_vectors oo = true -> length (io_t_vals sol) = S acc) /\
      ((io_status sol = SUCCESS /\ ct_attempt c = (ct_newton_success c + ct_reject_newton c)%nat /\ io_elapsed_time sol = Some clock /\
        io_accept_frac sol = Some (sZ (Z.of_nat acc) /. sZ (Z.of_nat (ct_attempt c)))) \/
       (io_status sol = ERROR_MAX_STEPS_EXCEEDED /\ ct_attempt c = (ct_newton_success c + ct_reject_newton c + 1)%nat /\
        io_elapsed_time sol = None /\ io_accept_frac sol = None) \/
       (io_status sol = GENERAL_ERROR /\ io_adaptive opts = false /\ ct_attempt c = 1%nat /\ ct_newton_success c = 0%nat /\ ct_reject_newton c = 0%nat /\
        io_elapsed_time sol = None /\ io_accept_frac sol = None)).
    Proof.
      destruct (finished_plain _ _ _ Hrun) as (sc & nopts & mo & dw & d2w & Hst & atts & O & A & _ & _ & E). cbv zeta.
      destruct (dims_of sc _ (st_dims _ _ _ _ _ _ _ _ _ _ Hst)) as (L1 & L2 & L3 & L4 & _).
      assert (Hs : (0 < length (sc_b sc))%nat) by (rewrite L1; apply irk_stages_pos, (st_method _ _ _ _ _ _ _ _ _ _ Hst)).
      destruct O as [O1 O2 O3 O4 O5 O6 O7 O8 O9 O10 O11].
      split; [lia|]. split; [symmetry; exact O7|]. split; [exact O8|]. split; [exact O9|]. split.
      { intros Ei Es. rewrite O1. cbn [length]. rewrite map_length. unfold stored. rewrite Es, Ei, every_one. lia. }
      destruct E as [(E1 & E2 & E3 & E4 & _)|[(E1 & E2 & E3 & E4 & _)|(E1 & E2 & E3 & E4 & Ead & _ & atts' & a & Ea & Eo & Ef)]]; rewrite E1 in * .
      - left. change (SUCCESS =? GENERAL_ERROR)%Z with false in * . cbv iota in * . pose proof (ended_all atts) as L. unfold ended in L at 1. rewrite <- O6 in L.
        split; [reflexivity|]. split; [lia|]. split; [exact E3|]. rewrite E4, E2, O10, O11. do 4 f_equal. lia.
      - right. left. change (ERROR_MAX_STEPS_EXCEEDED =? GENERAL_ERROR)%Z with false in * . cbv iota in * . pose proof (ended_all atts) as L. unfold ended in L at 1. rewrite <- O6 in L.
        split; [reflexivity|]. split; [lia|]. auto.
      - right. right. rewrite Z.eqb_refl in * . subst atts. rewrite removelast_last in * . split; [reflexivity|]. split; [exact Ead|].
        assert (Hnone : atts' = []).
        { destruct atts' as [|b atts']; [reflexivity|]. exfalso. destruct A as [_ A2 _ _ _ _ _]. rewrite Forall_forall in A2.
          assert (Eb : ia_out b = NewtonFailed) by (eapply nonadaptive_fails; [exact Hst|exact Ead|apply A2; left; reflexivity]).
          unfold ended in Ef. cbn [filter] in Ef. rewrite Eb in Ef. discriminate. }
        subst atts'. cbn in * . repeat split; try assumption; lia.
    Qed.
  End Run.

  (** a run in which no stage equations are ever solved *)
  Lemma dead_run X lgg lg lg0 sc nopts mo dw d2w out0 dt0 (w' : W) sol :
    (forall a, attempt_facts F t1 y0 opts sc nopts dw d2w X a -> ia_out a = NewtonFailed) -> (t0 <?. t1) = true ->
    finished F t0 t1 y0 opts sc oo nopts mo dw d2w out0 lgg lg lg0 X dt0 w' sol ->
    io_status sol = GENERAL_ERROR /\ io_adaptive opts = false /\ io_t_vals sol = [t0] /\ io_y_vals sol = [y0] /\ ct_attempt (io_count sol) = 1%nat /\ w_out w' = out0.
  Proof.
    intros Hdead Hlt (atts & O & A & Fl & _ & E).
    assert (Ha : forall l, (forall a, In a l -> In a atts) -> ended Accepted l = []).
    { intros l Hl. destruct (ended Accepted l) as [|a acc] eqn:Ea; [reflexivity|]. exfalso.
      assert (Hi : In a (ended Accepted l)) by (rewrite Ea; left; reflexivity). apply ended_in in Hi. destruct Hi as [Hi Ho].
      destruct A as [_ A2 _ _ _ _ _]. rewrite Forall_forall in A2. rewrite (Hdead a (A2 a (Hl a Hi))) in Ho. discriminate. }
    assert (Hs : forall l, (forall a, In a l -> In a atts) -> stored oo l = []).
    { intros l Hl. unfold stored. rewrite (Ha l Hl). destruct (store_in_vectors oo); reflexivity. }
    destruct E as [(E1 & E2 & _ & _ & E5)|[(_ & _ & _ & _ & E1 & E2 & _)|(E1 & E2 & E3 & E4 & Ead & _ & atts' & a & Ea & Eo & Ef)]].
    - exfalso. unfold itime_after in E5. rewrite (Ha atts (fun a h => h)) in E5. cbn in E5. congruence.
    - exfalso. rewrite (Ha atts (fun a h => h)) in E2. cbn in E2. lia.
    - rewrite E1, Z.eqb_refl in O. subst atts. rewrite removelast_last in O.
      assert (Hn : atts' = []).
      { destruct atts' as [|b l]; [reflexivity|]. exfalso. destruct A as [_ A2 _ _ _ _ _]. rewrite Forall_forall in A2.
        unfold ended in Ef. cbn [filter] in Ef. rewrite (Hdead b) in Ef by (apply A2; left; reflexivity). discriminate. }
      subst atts'. destruct O as [O1 O2 O3 O4 O5 O6 O7 O8 O9 O10 O11]. rewrite (Hs [] (fun a h => match h with end)) in O1, O2.
      repeat split; try assumption. rewrite Fl. unfold lines. rewrite (Ha ([] ++ [a]) (fun a h => h)). destruct (write_to_file oo); apply app_nil_r.
  Qed.

  Lemma irk_nonadaptive (w w' : W) sol : irk_odeint fuel F t0 t1 y0 opts oo m dt w = (w', Ok sol) -> io_adaptive opts = false -> (t0 <?. t1) = true ->
    io_status sol = GENERAL_ERROR /\ io_t_vals sol = [t0] /\ io_y_vals sol = [y0] /\ ct_attempt (io_count sol) = 1%nat /\ w_out w' = w_out w.
  Proof.
    intros Hr Ead Hlt. destruct (finished_plain _ _ _ Hr) as (sc & nopts & mo & dw & d2w & Hst & Hf).
    apply dead_run in Hf; [tauto| |exact Hlt]. intros a Ha. eapply nonadaptive_fails; eassumption.
  Qed.

  (** compiled with NDEBUG the factors are never computed *)
  Lemma ndebug_fails X sc nopts mo dw d2w a : irk_started t0 t1 opts m dt sc nopts mo dw d2w -> ndebug = true ->
    attempt_facts F t1 y0 opts sc nopts dw d2w X a -> ia_out a = NewtonFailed /\ exists s, X s /\ (is_maxit s <= 1)%Z.
  Proof.
    intros Hst End (s & HXs & _ & _ & _ & _ & Hl & v & v1 & sr & Hss & Hm).
    destruct (started_stages _ _ _ _ _ _ _ _ _ _ Hst _ _ _ _ _ _ _ _ _ _ _ _ Hss) as (v0 & V & D). destruct D as [[T1 T2 T3 T4] Hd _ _ _ _ Hs _ _].
    assert (HV : V = []).
    { destruct V as [|v' V]; [reflexivity|]. exfalso. destruct (T3 0%nat v0 v' eq_refl eq_refl) as (JY & _ & Hi & _).
      unfold stage_increment, factors in Hi. rewrite End in Hi. cbn [negb andb rbind] in Hi.
      unfold mv in Hi. cbn [ncols mat_empty mcols length] in Hi. inversion T2 as [|? ? Hr _]; subst. destruct Hr as (vals & _ & _ & _ & _ & _ & Lr).
      assert (Hp : (0 < length (sc_b sc))%nat).
      { destruct (dims_of sc _ (st_dims _ _ _ _ _ _ _ _ _ _ Hst)) as (L1 & _). rewrite L1. apply irk_stages_pos, (st_method _ _ _ _ _ _ _ _ _ _ Hst). }
      destruct (length (v_r v0)) eqn:E; [|discriminate]. destruct (length (sc_b sc)), (length (is_y s)); lia. }
    subst V. destruct Hs as [(_ & E & _)|(E1 & _ & E3 & _)]; [contradiction|]. split.
    - destruct (ia_out a); [reflexivity| |]; destruct Hm as (Hm & _); rewrite E1 in Hm; discriminate.
    - exists s. split; [exact HXs|]. cbn in E3. lia.
  Qed.

  (** with an iteration limit of at most 1 the stage equations are never solved *)
  Definition stuck (nopts : options T) (s : irk_state T) : Prop := (is_maxit s <= 1)%Z /\ is_step s = 0%Z /\ is_relax s = 0%Z.
  Lemma stuck_fails sc nopts mo dw d2w a : irk_started t0 t1 opts m dt sc nopts mo dw d2w ->
    attempt_facts F t1 y0 opts sc nopts dw d2w (stuck nopts) a -> ia_out a = NewtonFailed.
  Proof.
    intros Hst (s & (HXs & _) & _ & _ & _ & _ & Hl & v & v1 & sr & Hss & Hm).
    destruct (started_stages _ _ _ _ _ _ _ _ _ _ Hst _ _ _ _ _ _ _ _ _ _ _ _ Hss) as (v0 & V & D). destruct D as [_ _ _ _ _ _ Hs _ _].
    destruct Hs as [(_ & E1 & E2 & E3 & _)|(E1 & _)]; [destruct V; [contradiction|cbn in E2; lia]|].
    destruct (ia_out a); [reflexivity| |]; destruct Hm as (Hm & _); rewrite E1 in Hm; discriminate.
  Qed.
  Lemma stuck_kept sc nopts mo dw d2w s (w w' : W) s' : irk_started t0 t1 opts m dt sc nopts mo dw d2w -> stuck nopts s ->
    irk_body F t1 opts sc oo nopts mo dw d2w s w = (w', Ok (inl s')) -> stuck nopts s'.
  Proof.
    intros Hst (X1 & X2 & X3) Hb. apply irk_body_inv in Hb. inversion Hb as [| |w1 sr maxit relax El Ead c h Hss Hs Hm isk EQw EQs|w1 sr w2 yn est calls err nd El Ead c h Hss Hs Hem Hgt Hnd EQw EQs|
      w1 sr w2 yn est calls err nd w3 sol El c h Hss Hs Hem Hgt Hnd Hrec nd' EQw EQs].
    - rewrite X2, X3 in Hm. cbn in Hm. destruct Hm as [-> ->]. repeat split; assumption.
    - exfalso. destruct (started_stages _ _ _ _ _ _ _ _ _ _ Hst _ _ _ _ _ _ _ _ _ _ _ _ Hss) as (v0 & V & D). destruct D as [_ _ _ _ _ _ Hq _ _].
      destruct Hq as [(_ & E1 & E2 & E3 & _)|(E1 & _)]; [destruct V; [contradiction|cbn in E2; lia]|rewrite E1 in Hs; discriminate].
    - exfalso. destruct (started_stages _ _ _ _ _ _ _ _ _ _ Hst _ _ _ _ _ _ _ _ _ _ _ _ Hss) as (v0 & V & D). destruct D as [_ _ _ _ _ _ Hq _ _].
      destruct Hq as [(_ & E1 & E2 & E3 & _)|(E1 & _)]; [destruct V; [contradiction|cbn in E2; lia]|rewrite E1 in Hs; discriminate].
  Qed.
  Lemma irk_maxit_one (w w' : W) sol nopts : io_newton opts = Some nopts -> (o_maxit nopts <= 1)%Z -> (t0 <?. t1) = true ->
    irk_odeint fuel F t0 t1 y0 opts oo m dt w = (w', Ok sol) ->
    io_adaptive opts = false /\ io_status sol = GENERAL_ERROR /\ io_t_vals sol = [t0] /\ io_y_vals sol = [y0] /\ ct_attempt (io_count sol) = 1%nat /\ w_out w' = w_out w.
  Proof.
    intros Hn Hmx Hlt Hr.
    destruct (irk_odeint_finished F false (fun _ => []) (fun e => ltac:(discriminate e)) (fun e => ltac:(discriminate e)) (fun _ _ n' _ _ _ s => stuck n' s) fuel t0 t1 y0 opts oo m dt w w' sol) as (sc & n2 & mo & dw & d2w & Hst & Hf); [|exact Hr|].
    { intros sc n2 mo dw d2w Hst. rewrite (st_nopts _ _ _ _ _ _ _ _ _ _ Hst) in Hn. injection Hn as ->. split; [repeat split; assumption|].
      intros s v v' s' Hx _ _ Hb. eapply stuck_kept; eassumption. }
    apply dead_run in Hf; [tauto| |exact Hlt]. intros a Ha. eapply stuck_fails; eassumption.
  Qed.

  Definition at_start (nopts : options T) (s : irk_state T) : Prop := is_maxit s = o_maxit nopts /\ is_step s = 0%Z /\ is_relax s = 0%Z.
  Lemma no_success_ndebug sc nopts mo dw d2w y t h maxit rf xt Rt f0 j0 (w w' : W) sr : irk_started t0 t1 opts m dt sc nopts mo dw d2w -> ndebug = true ->
    newton_solve_stages F y t h sc false true maxit rf xt Rt f0 j0 w = (w', Ok sr) -> sr_status sr <> Newton.SUCCESS /\ (maxit <= 1)%Z.
  Proof.
    intros Hst End Hss. destruct (started_stages _ _ _ _ _ _ _ _ _ _ Hst _ _ _ _ _ _ _ _ _ _ _ _ Hss) as (v0 & V & D). destruct D as [[T1 T2 T3 T4] Hd _ _ _ _ Hs _ _].
    assert (HV : V = []).
    { destruct V as [|v' V]; [reflexivity|]. exfalso. destruct (T3 0%nat v0 v' eq_refl eq_refl) as (JY & _ & Hi & _).
      unfold stage_increment, factors in Hi. rewrite End in Hi. cbn [negb andb rbind] in Hi.
      unfold mv in Hi. cbn [ncols mat_empty mcols length] in Hi. inversion T2 as [|? ? Hr _]; subst. destruct Hr as (vals & _ & _ & _ & _ & _ & Lr).
      assert (Hp : (0 < length (sc_b sc))%nat).
      { destruct (dims_of sc _ (st_dims _ _ _ _ _ _ _ _ _ _ Hst)) as (L1 & _). rewrite L1. apply irk_stages_pos, (st_method _ _ _ _ _ _ _ _ _ _ Hst). }
      destruct (length (v_r v0)) eqn:E; [|discriminate]. destruct (length (sc_b sc)), (length y); lia. }
    subst V. destruct Hs as [(_ & E & _)|(E1 & _ & E3 & _)]; [contradiction|]. rewrite E1. split; [discriminate|]. cbn in E3. lia.
  Qed.
  Lemma irk_ndebug (w w' : W) sol nopts : io_newton opts = Some nopts -> ndebug = true -> (t0 <?. t1) = true ->
    irk_odeint fuel F t0 t1 y0 opts oo m dt w = (w', Ok sol) ->
    io_adaptive opts = false /\ (o_maxit nopts <= 1)%Z /\ io_status sol = GENERAL_ERROR /\ io_t_vals sol = [t0] /\ io_y_vals sol = [y0] /\ ct_attempt (io_count sol) = 1%nat.
  Proof.
    intros Hn End Hlt Hr.
    destruct (irk_odeint_finished F false (fun _ => []) (fun e => ltac:(discriminate e)) (fun e => ltac:(discriminate e)) (fun _ _ n' _ _ _ s => at_start n' s) fuel t0 t1 y0 opts oo m dt w w' sol) as (sc & n2 & mo & dw & d2w & Hst & Hf); [|exact Hr|].
    { intros sc n2 mo dw d2w Hst. split; [repeat split|].
      intros s v v' s' (X1 & X2 & X3) _ _ Hb. apply irk_body_inv in Hb. inversion Hb as [| |w1 sr maxit relax El Ead c h Hss Hs Hm isk EQw EQs|w1 sr w2 yn est calls err nd El Ead c h Hss Hs Hem Hgt Hnd EQw EQs|
      w1 sr w2 yn est calls err nd w3 sol' El c h Hss Hs Hem Hgt Hnd Hrec nd' EQw EQs].
      - rewrite X2, X3 in Hm. cbn in Hm. destruct Hm as [-> ->]. repeat split; assumption.
      - exfalso. apply (no_success_ndebug _ _ _ _ _ _ _ _ _ _ _ _ _ _ _ _ _ Hst End) in Hss. tauto.
      - exfalso. apply (no_success_ndebug _ _ _ _ _ _ _ _ _ _ _ _ _ _ _ _ _ Hst End) in Hss. tauto. }
    assert (Hfail : forall a, attempt_facts F t1 y0 opts sc n2 dw d2w (at_start n2) a -> ia_out a = NewtonFailed /\ (o_maxit nopts <= 1)%Z).
    { intros a Ha. destruct (ndebug_fails _ _ _ _ _ _ _ Hst End Ha) as (E1 & s & (X1 & _) & E2). split; [exact E1|].
      rewrite (st_nopts _ _ _ _ _ _ _ _ _ _ Hst) in Hn. injection Hn as <-. lia. }
    assert (Hmx : (o_maxit nopts <= 1)%Z).
    { destruct Hf as (atts & _ & [_ A2 _ _ _ _ _] & _ & _ & E). destruct atts as [|a atts].
      - exfalso. destruct E as [(_ & _ & _ & _ & E)|[(_ & _ & _ & _ & E1 & E2 & _)|(_ & _ & _ & _ & _ & _ & l & a & E & _)]].
        + cbn in E. congruence.
        + cbn in E2. lia.
        + destruct l; discriminate.
      - inversion A2 as [|? ? Ha _]; subst. apply (Hfail _ Ha). }
    apply dead_run in Hf; [tauto| |exact Hlt]. intros a Ha. apply Hfail, Ha.
  Qed.

  Lemma irk_limit (w w' : W) sol : irk_odeint fuel F t0 t1 y0 opts oo m dt w = (w', Ok sol) ->
    let steps := Z.of_nat (ct_newton_success (io_count sol) - ct_reject_err (io_count sol)) in
    exists reached, (output_interval oo = 1%Z -> store_in_vectors oo = true -> reached = last (io_t_vals sol) t0) /\
      (io_status sol = SUCCESS /\ (reached <?. t1) = false /\ ((0 <= io_max_steps opts)%Z -> (steps <= io_max_steps opts + 1)%Z) \/
       io_status sol = ERROR_MAX_STEPS_EXCEEDED /\ (reached <?. t1) = true /\ (0 <= io_max_steps opts)%Z /\ steps = (io_max_steps opts + 1)%Z \/
       io_status sol = GENERAL_ERROR /\ io_adaptive opts = false /\ (t0 <?. t1) = true /\ io_t_vals sol = [t0]).
  Proof.
    intros Hr. destruct (t0 <?. t1) eqn:Hlt.
    2: { destruct (finished_plain _ _ _ Hr) as (sc & nopts & mo & dw & d2w & Hst & atts & O & A & _ & _ & E). exists t0.
      assert (Hn : atts = []).
      { destruct atts as [|a l]; [reflexivity|]. destruct A as [A1 A2 _ _ _ _ _]. inversion A2 as [|? ? (s & _ & B1 & _ & _ & B2 & _) _]; subst.
        destruct (A1 0%nat a eq_refl) as [C1 _]. cbn in C1. rewrite B1, C1 in B2. congruence. }
      subst atts. cbv zeta. split.
      - intros _ _. rewrite (oo_t _ _ _ _ _ _ O). destruct (io_status sol =? GENERAL_ERROR)%Z; unfold stored; cbn; destruct (store_in_vectors oo); reflexivity.
      - assert (Eo : (ct_newton_success (io_count sol) - ct_reject_err (io_count sol) = 0)%nat).
        { rewrite (oo_succ _ _ _ _ _ _ O), (oo_rej _ _ _ _ _ _ O). destruct (io_status sol =? GENERAL_ERROR)%Z; reflexivity. }
        rewrite Eo. left. destruct E as [(E1 & _)|[(_ & _ & _ & _ & E1 & E2 & _)|(_ & _ & _ & _ & _ & _ & l & a & E & _)]].
        + split; [exact E1|]. split; [exact Hlt|]. cbn. lia.
        + cbn in E2. lia.
        + destruct l; discriminate. }
    destruct (io_adaptive opts) eqn:Ead.
    - destruct (finished_plain _ _ _ Hr) as (sc & nopts & mo & dw & d2w & Hst & atts & O & A & _ & _ & E). exists (itime_after t0 atts).
      assert (Es : (io_status sol =? GENERAL_ERROR)%Z = false) by (destruct E as [(E & _)|[(E & _)|(_ & _ & _ & _ & E & _)]]; [rewrite E; reflexivity..|congruence]).
      rewrite Es in O. cbv zeta. rewrite (oo_succ _ _ _ _ _ _ O), (oo_rej _ _ _ _ _ _ O). replace (_ + _ - _)%nat with (length (ended Accepted atts)) by lia. split.
      + intros Ei Eso. rewrite (oo_t _ _ _ _ _ _ O). unfold stored, itime_after. rewrite Eso, Ei, every_one.
        destruct (map ia_end (ended Accepted atts)) as [|x l]; reflexivity.
      + destruct A as [_ _ A3 _ _ _ _]. destruct E as [(E1 & E2 & _ & _ & E5)|[(E1 & _ & _ & _ & E2 & E3 & E4)|(_ & _ & _ & _ & E & _)]]; [left|right; left|congruence]; auto.
    - destruct (irk_nonadaptive _ _ _ Hr Ead Hlt) as (E1 & E2 & _). exists t0. split; [rewrite E2; reflexivity|]. right. right. auto.
  Qed.
End Results.

Section Logged.
  Context {T : Type} `{Scalar T} `{LinAlg T} `{Env T} {St : Type}.
  Variables (F : functor T St).
  Lemma logged_fun : forall t y (s : St * list (call T)), snd (fst (f_fun (logged F) t y s)) = snd s ++ [CallFun t y].
  Proof. intros t y [s l]. cbn. destruct (f_fun F t y s). reflexivity. Qed.
  Lemma logged_jac : forall t y (s : St * list (call T)), snd (fst (f_jac (logged F) t y s)) = snd s ++ [CallJac t y].
  Proof. intros t y [s l]. cbn. destruct (f_jac F t y s). reflexivity. Qed.

  Lemma irk_calls fuel t0 t1 y0 opts oo m dt w w' sol : irk_odeint fuel (logged F) t0 t1 y0 opts oo m dt w = (w', Ok sol) ->
    exists l, snd (w_st w') = snd (w_st w) ++ l /\ count_fun l = ct_fun_evals (io_count sol) /\ count_jac l = ct_jac_evals (io_count sol).
  Proof.
    intros Hr.
    destruct (irk_odeint_finished (logged F) true snd (fun _ => logged_fun) (fun _ => logged_jac) (fun _ _ _ _ _ _ _ => True) fuel t0 t1 y0 opts oo m dt w w' sol) as (sc & n2 & mo & dw & d2w & Hst & atts & _ & _ & _ & L & _);
      [intros; split; auto|exact Hr|].
    destruct (L eq_refl) as (l & L1 & L2 & L3 & _). exists l. auto.
  Qed.
End Logged.

(** ** Methods that cannot run *)
Section Refused.
  Context {T : Type} `{Scalar T} `{LinAlg T} `{Env T} {St : Type}.
  Local Notation W := (world T St).
  Variables (F : functor T St) (fuel : nat) (t0 t1 : T) (y0 : list T) (opts : irk_options T) (oo : output_options) (dt : T).
  (** the two assertions at the start hold *)
  Definition started_ok : Prop := io_newton opts <> None /\ (clip t1 t0 dt >?. sZ 0) = true.

  Lemma odeint_common m (w : W) : started_ok -> exists sc, irk_table (T := T) m = Ok sc /\ dims_ok sc (irk_stages m) = true /\
    irk_odeint fuel F t0 t1 y0 opts oo m dt w =
    (if ndebug || negb (irk_stages m =? 0)%nat then
       match (match sc_order sc, sc_order2 sc with Some a, Some b => Ok (Z.min a b mod 2 ^ 64)%Z | _, _ => Err EUB end) with
       | Err e => (w, Err e)
       | Ok mo => match inv (sc_A sc) with
                  | Err e => (w, Err e)
                  | Ok Ai => match mv (transpose (sZ 0) Ai) (sc_b sc) with
                             | Err e => (w, Err e)
                             | Ok dw => match mv (transpose (sZ 0) Ai) (sc_b2 sc) with
                                        | Err e => (w, Err e)
                                        | Ok d2w => irk_odeint fuel F t0 t1 y0 opts oo m dt w
                                        end
                             end
                  end
       end
     else (w, Err EAbort)).
  Proof.
    intros [Hn Hdt]. destruct (irk_get_ok (T := T) m) as (sc & Hg & Ht & Hd). exists sc. split; [exact Ht|]. split; [exact Hd|].
    assert (Eb : forall A B (m' : M W A) (k : A -> M W B) v e, m' v = (v, Err e) -> bind m' k v = (v, Err e)) by (intros A B m' k v e E; unfold bind; rewrite E; reflexivity).
    assert (Er : forall A B (x : res A) a (k : A -> M W B) v, x = Ok a -> bind (lift x) k v = k a v) by (intros A B x a k v ->; reflexivity).
    assert (El : forall A (x : res A) e (v : W), x = Err e -> lift x v = (v, Err e)) by (intros A x e v ->; reflexivity).
    assert (Ea : forall B c (k : unit -> M W B) v, ndebug || c = true -> bind (assert_ ndebug c) k v = k tt v).
    { intros B c k v E. unfold bind, assert_. destruct ndebug; [reflexivity|]. destruct c; [reflexivity|discriminate]. }
    assert (Eq : irk_odeint fuel F t0 t1 y0 opts oo m dt w = bind (assert_ ndebug (irk_verify_solver_coeffs sc)) (fun _ => irk_guts fuel F t0 t1 y0
        (if io_adaptive opts && (length (sc_b2 sc) =? 0)%nat then IrkOptions false (io_rel_tol opts) (io_abs_tol opts) (io_max_dt opts) (io_max_steps opts) (io_newton opts) else opts) dt sc oo) w).
    { unfold irk_odeint. rewrite (Er _ _ _ sc _ _ Hg). reflexivity. }
    match type of Eq with context [irk_guts fuel F t0 t1 y0 ?o dt sc oo] => set (opts' := o) in Eq end.
    assert (Eo : io_newton opts' = io_newton opts) by (unfold opts'; destruct (_ && _); reflexivity).
    destruct (io_newton opts) as [nopts|] eqn:En; [|contradiction].
    rewrite (irk_verify_dims sc _ Hd) in Eq. destruct (ndebug || negb (irk_stages m =? 0)%nat) eqn:Ev.
    2: { rewrite Eq. apply Eb. apply orb_false_iff in Ev. destruct Ev as [E1 E2]. rewrite E1, E2. reflexivity. }
    rewrite Ea in Eq by exact Ev.
    assert (G : irk_guts fuel F t0 t1 y0 opts' dt sc oo w =
      bind (lift (match sc_order sc, sc_order2 sc with Some a, Some b => Ok (Z.min a b mod 2 ^ 64)%Z | _, _ => Err EUB end)) (fun mo =>
      bind (lift (inv (sc_A sc))) (fun Ai => bind (lift (mv (transpose (sZ 0) Ai) (sc_b sc))) (fun dw => bind (lift (mv (transpose (sZ 0) Ai) (sc_b2 sc))) (fun d2w =>
         r <- while (fun s => is_t s <?. t1) (irk_body F t1 opts' sc oo nopts mo dw d2w) fuel (irk_init t0 y0 (length (sc_b sc)) nopts (clip t1 t0 dt)) ;; ret (final r))))) w).
    { unfold irk_guts. fold (clip t1 t0 dt). rewrite Eo. rewrite Ea by (apply orb_true_r). rewrite Ea by (rewrite Hdt; apply orb_true_r). rewrite (Er _ _ _ nopts _ _ eq_refl).
      destruct (match sc_order sc, sc_order2 sc with Some a, Some b => Ok (Z.min a b mod 2 ^ 64)%Z | _, _ => Err EUB end) as [mo|e'] eqn:Emo; [|reflexivity].
      rewrite !(Er _ _ _ mo _ _ eq_refl). destruct (inv (sc_A sc)) as [Ai|e']; [|reflexivity]. rewrite !(Er _ _ _ Ai _ _ eq_refl).
      destruct (mv (transpose (sZ 0) Ai) (sc_b sc)) as [dw|e']; [|reflexivity]. rewrite !(Er _ _ _ dw _ _ eq_refl).
      destruct (mv (transpose (sZ 0) Ai) (sc_b2 sc)) as [d2w|e']; [|reflexivity]. rewrite !(Er _ _ _ d2w _ _ eq_refl).
      unfold bind, irk_init. destruct (while _ _ _ _ _) as [w1 [r|e]]; [|reflexivity]. destruct r; reflexivity. }
    rewrite G in Eq.
    destruct (match sc_order sc, sc_order2 sc with Some a, Some b => Ok (Z.min a b mod 2 ^ 64)%Z | _, _ => Err EUB end) as [mo|e']; [|exact Eq].
    rewrite (Er _ _ _ mo _ _ eq_refl) in Eq. destruct (inv (sc_A sc)) as [Ai|e']; [|exact Eq]. rewrite (Er _ _ _ Ai _ _ eq_refl) in Eq.
    destruct (mv (transpose (sZ 0) Ai) (sc_b sc)) as [dw|e']; [|exact Eq]. rewrite (Er _ _ _ dw _ _ eq_refl) in Eq.
    destruct (mv (transpose (sZ 0) Ai) (sc_b2 sc)) as [d2w|e']; [|exact Eq]. reflexivity.
  Qed.

  Lemma irk_unsupported m (w : W) : started_ok -> ~ In m implicit_methods ->
    irk_odeint fuel F t0 t1 y0 opts oo m dt w = (w, Err (if ndebug then EUB else EAbort)).
  Proof.
    intros Hs Hm. destruct (odeint_common m w Hs) as (sc & Ht & Hd & ->). rewrite <- irk_stages_pos in Hm. replace (irk_stages m) with 0%nat by lia. cbn [Nat.eqb negb].
    rewrite orb_false_r. destruct ndebug; [|reflexivity].
    assert (E : irk_stages m = 0%nat) by lia.
    assert (Hu : sc = unsupported_coeffs).
    { clear - Ht E. unfold irk_table, irk_stages in * .
      repeat match type of E with context [(m =? ?k)%Z] => destruct (m =? k)%Z; [discriminate E|] end. congruence. }
    rewrite Hu. reflexivity.
  Qed.

  Lemma irk_no_orders m (w : W) : started_ok -> m = GAUSS_LEGENDRE_147 \/ m = LOBATTO_IIIA_127 ->
    irk_odeint fuel F t0 t1 y0 opts oo m dt w = (w, Err EUB).
  Proof.
    intros Hs Hm. destruct (odeint_common m w Hs) as (sc & Ht & Hd & ->).
    assert (Hi : In m implicit_methods) by (destruct Hm as [->| ->]; unfold implicit_methods; cbn; tauto).
    destruct (irk_table_fields m sc Ht Hi) as [_ Ho]. assert (E : has_orders m = false) by (destruct Hm as [->| ->]; reflexivity). rewrite E in Ho.
    apply irk_stages_pos in Hi. destruct (irk_stages m); [lia|]. cbn [Nat.eqb negb]. rewrite orb_true_r.
    destruct Ho as [Ho|Ho]; rewrite Ho; [reflexivity|]. destruct (sc_order sc); reflexivity.
  Qed.

  Lemma irk_no_pair (w : W) : started_ok -> exists k, irk_odeint fuel F t0 t1 y0 opts oo IMPLICIT_EULER dt w = (w, Err (EThrow k)).
  Proof.
    intros Hs. destruct (odeint_common IMPLICIT_EULER w Hs) as (sc & Ht & Hd & ->).
    assert (Hi : In IMPLICIT_EULER implicit_methods) by (unfold implicit_methods; cbn; tauto).
    destruct (irk_table_fields _ sc Ht Hi) as [Hb [Ho1 Ho2]]. cbn in Hb. change (irk_stages IMPLICIT_EULER) with 1%nat in * .
    cbn [Nat.eqb negb]. rewrite orb_true_r. destruct (sc_order sc); [|contradiction]. destruct (sc_order2 sc); [|contradiction].
    destruct (dims_of sc _ Hd) as (L1 & L2 & L3 & L4 & _). unfold inv, ncols. rewrite L3, L4. cbn [Nat.eqb].
    destruct (la_inv (sc_A sc)); [|eexists; reflexivity]. unfold mv. rewrite Hb, L1. cbn. exists ELogic. reflexivity.
  Qed.

  Lemma irk_singular m (w : W) : started_ok -> m = LOBATTO_IIIA_43 \/ m = GAUSS_LEGENDRE_42 ->
    (forall (A : mat T) i, (i < nrows A)%nat -> nrows A = ncols A -> Forall (fun c => nth i c (sZ 1) = slit 0 0) (mcols A) -> la_inv A = None) ->
    irk_odeint fuel F t0 t1 y0 opts oo m dt w = (w, Err (EThrow ERuntime)).
  Proof.
    intros Hs Hm Hz. destruct (odeint_common m w Hs) as (sc & Ht & Hd & ->).
    assert (Hi : In m implicit_methods) by (destruct Hm as [->| ->]; unfold implicit_methods; cbn; tauto).
    destruct (irk_table_fields m sc Ht Hi) as [_ Ho]. assert (E : has_orders m = true) by (destruct Hm as [->| ->]; reflexivity). rewrite E in Ho.
    destruct (dims_of sc _ Hd) as (L1 & L2 & L3 & L4 & _).
    assert (Hn : la_inv (sc_A sc) = None).
    { destruct Hm as [->| ->]; cbv [irk_table Z.eqb Pos.eqb IMPLICIT_EULER LOBATTO_IIIA_43 LOBATTO_IIIC_43 LOBATTO_IIIC_64 LOBATTO_IIIC_85 GAUSS_LEGENDRE_42] in Ht.
      - unfold irk_lobatto_iiia_43 in Ht. cbv zeta in Ht. try (match type of Ht with context [collocation_interpolate_coeffs ?c] => destruct (collocation_ok c) as [f Hf]; rewrite Hf in Ht end).
        cbn [rbind] in Ht. injection Ht as <-. apply (Hz _ 0%nat); [cbn; lia|reflexivity|]. repeat constructor.
      - unfold irk_gauss_legendre_42 in Ht. cbv zeta in Ht. try (match type of Ht with context [collocation_interpolate_coeffs ?c] => destruct (collocation_ok c) as [f Hf]; rewrite Hf in Ht end).
        cbn [rbind] in Ht. injection Ht as <-. apply (Hz _ 2%nat); [cbn; lia|reflexivity|]. repeat constructor. }
    apply irk_stages_pos in Hi. destruct (irk_stages m) as [|k] eqn:Ek; [lia|]. cbn [Nat.eqb negb]. rewrite orb_true_r.
    destruct Ho as [Ho1 Ho2]. destruct (sc_order sc); [|contradiction]. destruct (sc_order2 sc); [|contradiction].
    unfold inv, ncols. rewrite L3, L4, Nat.eqb_refl, Hn. reflexivity.
  Qed.
  Lemma irk_refused (w : W) : io_newton opts <> None -> ((if t0 +. dt >?. t1 then t1 -. t0 else dt) >?. sZ 0) = true ->
    (forall m, ~ In m implicit_methods -> irk_odeint fuel F t0 t1 y0 opts oo m dt w = (w, Err (if ndebug then EUB else EAbort))) /\
    (forall m, m = GAUSS_LEGENDRE_147 \/ m = LOBATTO_IIIA_127 -> irk_odeint fuel F t0 t1 y0 opts oo m dt w = (w, Err EUB)) /\
    (exists k, irk_odeint fuel F t0 t1 y0 opts oo IMPLICIT_EULER dt w = (w, Err (EThrow k))) /\
    ((forall (A : mat T) i, (i < nrows A)%nat -> nrows A = ncols A -> Forall (fun c => nth i c (sZ 1) = slit 0 0) (mcols A) -> la_inv A = None) ->
     forall m, m = LOBATTO_IIIA_43 \/ m = GAUSS_LEGENDRE_42 -> irk_odeint fuel F t0 t1 y0 opts oo m dt w = (w, Err (EThrow ERuntime))).
  Proof.
    intros K1 K2. assert (Hs : started_ok) by (split; assumption). split; [intros; apply irk_unsupported; assumption|]. split; [intros; apply irk_no_orders; assumption|].
    split; [apply irk_no_pair, Hs|]. intros; apply irk_singular; assumption.
  Qed.
End Refused.

Section File.
  Context {T : Type} `{Scalar T} `{LinAlg T} `{Env T} {St : Type}.
  Local Notation W := (world T St).
  Lemma irk_file (F : functor T St) fuel t0 t1 y0 opts oo m dt (w w' : W) sol : irk_odeint fuel F t0 t1 y0 opts oo m dt w = (w', Ok sol) ->
    (write_to_file oo = false -> w_out w' = w_out w) /\
    (write_to_file oo = true -> store_in_vectors oo = true -> w_out w' = w_out w ++ tl (combine (io_t_vals sol) (io_y_vals sol))) /\
    ((ct_reject_err (io_count sol) < ct_newton_success (io_count sol))%nat -> output_interval oo <> 0%Z).
  Proof.
    intros Hr. destruct (irk_aligned F fuel t0 t1 y0 opts oo m dt w w' sol Hr) as (atts & _ & E1 & E2 & E3 & _ & _ & _ & E4 & E5).
    split; [intros Hw; rewrite E4, Hw, app_nil_r; reflexivity|]. split.
    - intros Hw Hs. rewrite E4, Hw, E2, E3, Hs. f_equal. cbn [combine tl]. clear. induction (every (output_interval oo) (ended Accepted atts)) as [|a l IH]; [reflexivity|]. cbn. rewrite <- IH. reflexivity.
    - intros Hlt. apply E5. destruct (ended Accepted atts); [simpl in E1; lia|discriminate].
  Qed.
End File.
