(** Consequences of the run structure for irk::odeint, in every arithmetic and for every functor. *)
From Verif Require Import Model.Base Model.Scalar Model.LinAlg Model.Newton Model.Enums Model.Options Model.Coeffs Model.Collocation Model.IrkCoeffs Model.Irk.
From Verif Require Import Spec.Sums Spec.Observe Spec.ErkSpec Spec.NewtonSpec Spec.IrkSpec Spec.Methods.
From Verif Require Import Proofs.LoopProofs Proofs.OrderProofs Proofs.CollocationGeneric Proofs.TablesGeneric Proofs.ErkProofs Proofs.ErkRun Proofs.NewtonProofs Proofs.IrkProofs Proofs.IrkRun.
Local Open Scope sc_scope.
Local Open Scope mon_scope.

Section Tables.
  Context {T : Type} `{Scalar T} `{Env T}.
  (** which fields of the tables are missing *)
  Definition has_orders (m : Z) : bool := negb ((m =? GAUSS_LEGENDRE_147)%Z || (m =? LOBATTO_IIIA_127)%Z).
  Definition has_b2 (m : Z) : bool := negb (m =? IMPLICIT_EULER)%Z.
  Lemma irk_table_fields m sc : irk_table (T := T) m = Ok sc -> In m implicit_methods ->
    length (sc_b2 sc) = (if has_b2 m then length (sc_b sc) else 0%nat) /\
    (if has_orders m then sc_order sc <> None /\ sc_order2 sc <> None else sc_order sc = None \/ sc_order2 sc = None).
  Proof.
    intros Ht Hi. revert Ht.
    unfold irk_table, irk_implicit_euler, irk_lobatto_iiia_43, irk_lobatto_iiic_43, irk_lobatto_iiic_64,
      irk_lobatto_iiic_85, irk_gauss_legendre_42, irk_radau_iia_32, irk_radau_iia_53, irk_radau_iia_95, irk_radau_iia_137,
      irk_gauss_legendre_147, irk_lobatto_iiia_127. cbv zeta.
    unfold implicit_methods in Hi. cbn [In] in Hi.
    repeat match goal with H : _ \/ _ |- _ => destruct H as [<-|H] end; [..|contradiction]; cbv [Z.eqb Pos.eqb IMPLICIT_EULER
      RADAU_IIA_32 RADAU_IIA_53 RADAU_IIA_95 RADAU_IIA_137 LOBATTO_IIIA_43 LOBATTO_IIIA_127 LOBATTO_IIIC_43 LOBATTO_IIIC_64 LOBATTO_IIIC_85 GAUSS_LEGENDRE_42 GAUSS_LEGENDRE_147];
    try (match goal with |- context [collocation_interpolate_coeffs ?c] => destruct (collocation_ok c) as [f ->] end);
    cbn [rbind]; intros [= <-]; cbn [sc_b2 sc_b sc_order sc_order2 has_b2 has_orders length]; split; try reflexivity;
    cbv [has_orders negb orb Z.eqb Pos.eqb GAUSS_LEGENDRE_147 LOBATTO_IIIA_127]; try (split; discriminate); auto.
  Qed.
End Tables.

Section Odeint.
  Context {T : Type} `{Scalar T} `{LinAlg T} `{Env T} {St : Type}.
  Local Notation W := (world T St).
  Variables (F : functor T St) (logging : bool) (lg : St -> list (call T)).
  Hypothesis Hlogf : logging = true -> forall t y s, lg (fst (f_fun F t y s)) = lg s ++ [CallFun t y].
  Hypothesis Hlogj : logging = true -> forall t y s, lg (fst (f_jac F t y s)) = lg s ++ [CallJac t y].

  Lemma inv_inv (A B : mat T) : inv A = Ok B -> nrows A = ncols A /\ exists f, la_inv A = Some f /\ B = mtab (nrows A) (nrows A) f.
  Proof.
    unfold inv. destruct (nrows A =? ncols A) eqn:E; [|discriminate]. apply Nat.eqb_eq in E. destruct (la_inv A) as [f|]; [|discriminate].
    intros [= <-]. split; [exact E|]. exists f. auto.
  Qed.

  (** the state in which the main loop starts *)
  Definition irk_init (t0 : T) (y0 : list T) (ns : nat) (nopts : options T) (dt : T) : irk_state T :=
    IrkState t0 y0 dt 0 true (o_maxit nopts) 0 dt dt (slit 9 (-1))
      (IrkOutput SUCCESS [t0] [y0] [vzeros (length y0 * ns)] [vzeros (length y0)] [slit 0 0] None None (Counters 0 0 0 0 0 0 0 0 0)).
  (** what has been established when the main loop starts *)
  Record irk_started (t0 t1 : T) (opts : irk_options T) (m : Z) (dt : T) (sc : solver_coeffs T) (nopts : options T) (mo : Z) (dw d2w : list T) : Prop := {
    st_method : In m implicit_methods;
    st_orders : has_orders m = true;
    st_b2 : has_b2 m = true;
    st_sc : irk_get_coefficients m = Ok sc;
    st_dims : dims_ok sc (irk_stages m) = true;
    st_b2len : length (sc_b2 sc) = length (sc_b sc);
    st_nopts : io_newton opts = Some nopts;
    st_dt : ndebug = false -> (clip t1 t0 dt >?. sZ 0) = true;
    st_mo : exists a b, sc_order sc = Some a /\ sc_order2 sc = Some b /\ mo = (Z.min a b mod 2 ^ 64)%Z;
    st_dw : exists Ai, inv (sc_A sc) = Ok Ai /\ mv (transpose (sZ 0) Ai) (sc_b sc) = Ok dw /\ mv (transpose (sZ 0) Ai) (sc_b2 sc) = Ok d2w }.

  Lemma irk_odeint_start fuel t0 t1 y0 opts oo m dt (w w' : W) sol : irk_odeint fuel F t0 t1 y0 opts oo m dt w = (w', Ok sol) ->
    exists sc nopts mo dw d2w, irk_started t0 t1 opts m dt sc nopts mo dw d2w /\
      exists r, while (fun s => is_t s <?. t1) (irk_body F t1 opts sc oo nopts mo dw d2w) fuel (irk_init t0 y0 (length (sc_b sc)) nopts (clip t1 t0 dt)) w = (w', Ok r) /\
        sol = final r.
  Proof.
    unfold irk_odeint. intros Hr. apply bind_ok in Hr. destruct Hr as (w1 & sc & Hg & Hr). apply lift_ok in Hg. destruct Hg as [-> Hg].
    apply bind_ok in Hr. destruct Hr as (w1 & u & Hv & Hr). apply assert_ok in Hv. destruct Hv as [-> _].
    destruct (irk_get_ok (T := T) m) as (sc' & Hg' & Ht & Hd). rewrite Hg in Hg'. injection Hg' as <-.
    unfold irk_guts in Hr. apply bind_ok in Hr. destruct Hr as (w1 & u1 & Hv & Hr). apply assert_ok in Hv. destruct Hv as [-> _].
    apply bind_ok in Hr. destruct Hr as (w1 & u2 & Hv & Hr). apply assert_ok in Hv. destruct Hv as [-> Hv].
    apply bind_ok in Hr. destruct Hr as (w1 & nopts & Hn & Hr). apply lift_ok in Hn. destruct Hn as [-> Hn].
    apply bind_ok in Hr. destruct Hr as (w1 & mo & Hmo & Hr). apply lift_ok in Hmo. destruct Hmo as [-> Hmo].
    apply bind_ok in Hr. destruct Hr as (w1 & Ai & HAi & Hr). apply lift_ok in HAi. destruct HAi as [-> HAi].
    apply bind_ok in Hr. destruct Hr as (w1 & dw & Hdw & Hr). apply lift_ok in Hdw. destruct Hdw as [-> Hdw].
    apply bind_ok in Hr. destruct Hr as (w1 & d2w & Hd2w & Hr). apply lift_ok in Hd2w. destruct Hd2w as [-> Hd2w].
    destruct (dims_of sc _ Hd) as (L1 & L2 & L3 & L4 & L5).
    assert (Hm : In m implicit_methods).
    { destruct (in_dec Z.eq_dec m implicit_methods) as [Hi|Hi]; [exact Hi|]. exfalso. rewrite <- irk_stages_pos in Hi.
      assert (E : irk_stages m = 0%nat) by lia.
      assert (Hu : sc = unsupported_coeffs).
      { clear - Ht E. unfold irk_table, irk_stages in * .
        repeat match type of E with context [(m =? ?k)%Z] => destruct (m =? k)%Z; [discriminate E|] end. congruence. }
      rewrite Hu in Hmo. discriminate. }
    destruct (irk_table_fields m sc Ht Hm) as [Lb2 Ho].
    assert (Ho' : has_orders m = true).
    { destruct (has_orders m); [reflexivity|]. destruct Ho as [E|E]; rewrite E in Hmo; [|destruct (sc_order sc)]; discriminate. }
    assert (Hb2 : has_b2 m = true).
    { destruct (has_b2 m); [reflexivity|]. unfold mv in Hd2w. rewrite Lb2 in Hd2w. 
      apply inv_inv in HAi. destruct HAi as (_ & fi & _ & ->). rewrite L3 in Hd2w. unfold transpose, ncols, mtab in Hd2w. cbn [mcols nrows] in Hd2w.
      rewrite map_length, seq_length in Hd2w. apply irk_stages_pos in Hm. destruct (irk_stages m); [lia|discriminate]. }
    rewrite Hb2 in Lb2.
    assert (Eo : (if io_adaptive opts && (length (sc_b2 sc) =? 0)%nat
                then IrkOptions false (io_rel_tol opts) (io_abs_tol opts) (io_max_dt opts) (io_max_steps opts) (io_newton opts) else opts) = opts).
    { rewrite Lb2, L1. apply irk_stages_pos in Hm. destruct (irk_stages m); [lia|]. rewrite andb_false_r. reflexivity. }
    rewrite Eo in Hr, Hn.
    exists sc, nopts, mo, dw, d2w. split.
    - constructor; try assumption.
      + destruct (io_newton opts); [injection Hn as <-; reflexivity|discriminate].
      + destruct (sc_order sc) as [a|]; [|discriminate]. destruct (sc_order2 sc) as [b|]; [|discriminate]. exists a, b. injection Hmo as <-. auto.
      + exists Ai. auto.
    - apply bind_ok in Hr. destruct Hr as (w1 & r & Hw & Hr). exists r. destruct r as [s|sol']; apply ret_ok in Hr; destruct Hr as [-> <-].
      + split; [exact Hw|reflexivity].
      + split; [exact Hw|reflexivity].
  Qed.

  Lemma irk_odeint_finished (X : irk_options T -> solver_coeffs T -> options T -> Z -> list T -> list T -> irk_state T -> Prop)
    fuel t0 t1 y0 opts oo m dt (w w' : W) sol :
    (forall sc nopts mo dw d2w, irk_started t0 t1 opts m dt sc nopts mo dw d2w ->
       X opts sc nopts mo dw d2w (irk_init t0 y0 (length (sc_b sc)) nopts (clip t1 t0 dt)) /\
       forall s w w' s', X opts sc nopts mo dw d2w s -> (is_t s <?. t1) = true -> length (is_y s) = length y0 ->
         irk_body F t1 opts sc oo nopts mo dw d2w s w = (w', Ok (inl s')) -> X opts sc nopts mo dw d2w s') ->
    irk_odeint fuel F t0 t1 y0 opts oo m dt w = (w', Ok sol) ->
    exists sc nopts mo dw d2w, irk_started t0 t1 opts m dt sc nopts mo dw d2w /\
      finished F t0 t1 y0 opts sc oo nopts mo dw d2w (w_out w) logging lg (lg (w_st w)) (X opts sc nopts mo dw d2w) (clip t1 t0 dt) w' sol.
  Proof.
    intros HX Hr. apply irk_odeint_start in Hr. destruct Hr as (sc & nopts & mo & dw & d2w & Hst & r & Hw & ->).
    exists sc, nopts, mo, dw, d2w. split; [exact Hst|]. specialize (HX _ _ _ _ _ Hst). destruct HX as [HX0 HX].
    destruct (dims_of sc _ (st_dims _ _ _ _ _ _ _ _ _ _ Hst)) as (L1 & L2 & L3 & L4 & L5).
    assert (Hs : (0 < length (sc_b sc))%nat) by (rewrite L1; apply irk_stages_pos, (st_method _ _ _ _ _ _ _ _ _ _ Hst)).
    eapply (run_loop F t0 t1 y0 opts sc oo nopts mo dw d2w (w_out w) logging lg (lg (w_st w)) Hlogf Hlogj); [..|exact Hw].
    - unfold ncols. congruence.
    - congruence.
    - exact Hs.
    - exact HX.
    - assert (ES : forall (i : bool) (k : Z), (if i then every k (@nil (iattempt T)) else []) = []) by (intros [] k; reflexivity).
      constructor; cbn [irk_init is_sol io_status io_elapsed_time io_accept_frac io_count ct_attempt is_step is_t is_y ct_fun_evals ct_jac_evals]; try reflexivity.
      + constructor; cbn; unfold stored; cbn [ended filter]; rewrite ?ES; reflexivity.
      + constructor; try constructor; cbn; try lia.
        * destruct k; discriminate.
        * destruct k; discriminate.
        * congruence.
        * intros k a b Ha. destruct k; discriminate Ha.
        * discriminate.
      + unfold lines. cbn. destruct (write_to_file oo); rewrite app_nil_r; reflexivity.
      + intros _. exists []. rewrite app_nil_r. repeat split. constructor.
      + exact HX0.
      + discriminate.
      + intros _. split; reflexivity.
  Qed.
End Odeint.
