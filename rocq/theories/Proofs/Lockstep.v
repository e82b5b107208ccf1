(** Two runs in lockstep: the same problem on a translated time axis, in two environments that differ in the contents of
    uninitialised memory and in the clock. *)
From Verif Require Import Model.Base Model.Scalar Model.LinAlg Model.CyclicBuffer Model.Newton Model.Enums Model.Options Model.Coeffs Model.Collocation
  Model.ErkCoeffs Model.Erk Model.IrkCoeffs Model.Irk Model.Multistep.
From Verif Require Import Spec.Determinism Proofs.LoopProofs Proofs.RelProofs Proofs.ErkProofs Proofs.NewtonProofs.

Lemma mrel_foldM_seq {W1 W2} (WR : W1 -> W2 -> Prop) {A B} (R : nat -> A -> B -> Prop) (b1 : nat -> A -> M W1 A) (b2 : nat -> B -> M W2 B) n i a b :
  (forall k a b, (i <= k < i + n)%nat -> R k a b -> mrel WR (R (S k)) (b1 k a) (b2 k b)) -> R i a b ->
  mrel WR (R (i + n)%nat) (foldM b1 (seq i n) a) (foldM b2 (seq i n) b).
Proof.
  revert i a b. induction n as [|n IH]; intros i a b Hb Hr; cbn [seq foldM].
  - apply mrel_ret. rewrite Nat.add_0_r. exact Hr.
  - eapply mrel_bind; [apply Hb; [lia|exact Hr]|]. intros a' b' Hr'. replace (i + S n)%nat with (S i + n)%nat by lia.
    apply IH; [|exact Hr']. intros k a'' b'' Hk. apply Hb. lia.
Qed.
Lemma mrel_refl_lift {W1 W2} (WR : W1 -> W2 -> Prop) {A} (r : res A) : mrel WR eq (lift r) (lift r).
Proof. apply mrel_lift, rrel_eq. reflexivity. Qed.
Lemma mrel_lift_inv {W1 W2} (WR : W1 -> W2 -> Prop) {A} (r : res A) (P : A -> Prop) : (forall a, r = Ok a -> P a) ->
  mrel WR (fun a b => a = b /\ P a) (lift r) (lift r).
Proof. intros H. apply mrel_lift. destruct r as [a|e]; simpl; [split; [reflexivity|apply H; reflexivity]|reflexivity]. Qed.

Section Coeffs.
  Context {T : Type} {HS : Scalar T}.
  Lemma coefficients_env (E1 E2 : Env T) m : @ndebug T E1 = @ndebug T E2 -> @irk_get_coefficients T HS E1 m = @irk_get_coefficients T HS E2 m.
  Proof. destruct E1 as [n1 j1 c1], E2 as [n2 j2 c2]. cbn [ndebug]. intros <-. reflexivity. Qed.
End Coeffs.

(** Newton's method without the preconditioner does not look at uninitialised memory. *)
Section Newton.
  Context {T : Type} {HS : Scalar T} {HL : LinAlg T} (E1 E2 : Env T) {St : Type} (G : nfunctor T St).
  Definition nrel (a b : nstate (T := T)) : Prop :=
    ns_x0 a = ns_x0 b /\ ns_xn a = ns_xn b /\ ns_r a = ns_r b /\ ns_res2 a = ns_res2 b /\ ns_J a = ns_J b /\
    ns_term a = ns_term b /\ ns_conv a = ns_conv b /\ ns_iters a = ns_iters b /\ ns_prints a = ns_prints b.
  Lemma l_newton x opts stats quiet : o_precondition opts = false ->
    mrel eq eq (@newton_iterate T HS HL E1 St G x opts stats quiet) (@newton_iterate T HS HL E2 St G x opts stats quiet).
  Proof.
    intros Hp. enough (Hi : mrel eq eq
      (@newton_iterate_impl T HS HL E1 St G (if (o_refresh_jac opts >? 0)%Z then 1 else 0) false (o_time_internals opts) (o_limit_step opts) quiet x opts stats)
      (@newton_iterate_impl T HS HL E2 St G (if (o_refresh_jac opts >? 0)%Z then 1 else 0) false (o_time_internals opts) (o_limit_step opts) quiet x opts stats)).
    { intros w1 w2 Hw. rewrite !dispatch, Hp. apply Hi, Hw. }
    unfold newton_iterate_impl, newton_impl.
    assert (Hst : store_LU (if (o_refresh_jac opts >? 0)%Z then 1 else 0) = false) by (destruct (_ >? _)%Z; reflexivity).
    set (fl := if (o_refresh_jac opts >? 0)%Z then 1%Z else 0%Z) in * . rewrite Hst.
    assert (Hrun : forall (m : M St (list T)), mrel eq eq m m) by (intros m w ? <-; destruct (m w) as [w' [a|e]]; auto).
    assert (HrunJ : forall (m : M St (mat T)), mrel eq eq m m) by (intros m w ? <-; destruct (m w) as [w' [a|e]]; auto).
    eapply mrel_bind; [apply Hrun|]. intros r ? <-. eapply mrel_bind; [apply mrel_refl_lift|]. intros res2 ? <-.
    eapply mrel_bind; [apply HrunJ|]. intros J ? <-.
    eapply mrel_bind with (R := srel nrel eq).
    - apply mrel_while.
      + intros a b (H1 & H2 & H3 & H4 & H5 & H6 & H7 & H8 & H9). rewrite H6, H8. reflexivity.
      + intros a b (H1 & H2 & H3 & H4 & H5 & H6 & H7 & H8 & H9) _. unfold newton_body, newton_direction.
        destruct (ns_LUP a) as [[L1 U1] P1], (ns_LUP b) as [[L2 U2] P2]. rewrite Hst, H1, H3, H4, H5, H6, H7, H8, H9. simpl negb. cbn match.
        destruct (solve (ns_J b) (ns_r b)) as [d|[e| | |]]; cbn [rbind]; [|apply mrel_ret; reflexivity|apply mrel_fail|apply mrel_fail|apply mrel_fail].
        eapply mrel_bind; [apply mrel_refl_lift|]. intros dir ? <-. eapply mrel_bind; [apply mrel_refl_lift|]. intros xn ? <-.
        eapply mrel_bind with (R := eq). { destruct (negb _); [apply HrunJ|apply mrel_ret; reflexivity]. } intros J' ? <-.
        eapply mrel_bind; [apply Hrun|]. intros r' ? <-. eapply mrel_bind; [apply mrel_refl_lift|]. intros q ? <-.
        apply mrel_ret. repeat split.
      + repeat split.
    - intros [a|a] [b|b] Hab; simpl in Hab; try contradiction; [|subst; apply mrel_ret; reflexivity].
      destruct Hab as (H1 & H2 & H3 & H4 & H5 & H6 & H7 & H8 & H9). rewrite H2, H4, H7, H8, H9. apply mrel_ret. reflexivity.
  Qed.
End Newton.

Section Lock.
  Context {T : Type} {HS : Scalar T} {HL : LinAlg T} (E1 E2 : Env T) {St : Type} (sh : T -> T) (F : functor T St).
  Hypothesis Hnd : @ndebug T E1 = @ndebug T E2.
  Hypothesis sh_add : forall t d, sh (sadd t d) = sadd (sh t) d.
  Hypothesis sh_sub : forall a b, ssub (sh a) (sh b) = ssub a b.
  Hypothesis sh_lt : forall a b, sltb (sh a) (sh b) = sltb a b.
  Local Open Scope sc_scope.
  Local Notation W := (world T St).
  (** the problem on the translated axis *)
  Definition shF : functor T St := Functor (fun t y => f_fun F (sh t) y) (fun t y => f_jac F (sh t) y).
  Variables (o1 o2 : list (T * list T)).
  Definition lines (l : list (T * list T)) : list (T * list T) := map (fun p => (sh (fst p), snd p)) l.
  Definition wl (w1 w2 : W) : Prop := w_st w1 = w_st w2 /\ exists l, w_out w1 = o1 ++ lines l /\ w_out w2 = o2 ++ l.

  Lemma l_fun t y : mrel wl eq (in_world (T := T) (f_fun F (sh t) y)) (in_world (f_fun shF t y)).
  Proof.
    intros w1 w2 (H1 & l & H2 & H3). unfold in_world. cbn [shF f_fun]. rewrite H1.
    destruct (f_fun F (sh t) y (w_st w2)) as [s' [v|e]]; (split; [split; [reflexivity|]|reflexivity]); exists l; auto.
  Qed.
  Lemma l_jac t y : mrel wl eq (in_world (T := T) (f_jac F (sh t) y)) (in_world (f_jac shF t y)).
  Proof.
    intros w1 w2 (H1 & l & H2 & H3). unfold in_world. cbn [shF f_jac]. rewrite H1.
    destruct (f_jac F (sh t) y (w_st w2)) as [s' [v|e]]; (split; [split; [reflexivity|]|reflexivity]); exists l; auto.
  Qed.
  Lemma l_write t y : mrel wl eq (write_line (St := St) (sh t) y) (write_line t y).
  Proof.
    intros w1 w2 (H1 & l & H2 & H3). unfold write_line. split; [|reflexivity]. split; [exact H1|]. exists (l ++ [(t, y)]). simpl.
    rewrite H2, H3. unfold lines. rewrite map_app, <- !app_assoc. split; reflexivity.
  Qed.
  Lemma l_assert b : mrel wl eq (assert_ (@ndebug T E1) b) (assert_ (@ndebug T E2) b).
  Proof. rewrite Hnd. apply mrel_assert. reflexivity. Qed.
  Lemma l_clip t t1 d : (if sh t +. d >?. sh t1 then sh t1 -. sh t else d) = (if t +. d >?. t1 then t1 -. t else d).
  Proof. rewrite <- sh_add, sh_lt, sh_sub. reflexivity. Qed.

  Ltac same := first [apply mrel_refl_lift|apply l_assert|apply mrel_ret; reflexivity|apply mrel_fail].
  Ltac next := eapply mrel_bind; [same|intros ? ? <-].

  (** ** Explicit *)
  Section Erk.
    Context (t1 : T) (opts : erk_options T) (sc : solver_coeffs T) (oo : output_options).
    Local Notation ns := (length (sc_b sc)).
    (** stage matrices that agree in the first k columns *)
    Definition krel (k : nat) (A B : mat T) : Prop :=
      nrows A = nrows B /\ length (mcols A) = ns /\ length (mcols B) = ns /\ firstn k (mcols A) = firstn k (mcols B).
    Lemma nth_firstn {X} (l : list X) k j : (j < k)%nat -> nth_error (firstn k l) j = nth_error l j.
    Proof. revert k j. induction l as [|x l IH]; intros [|k] [|j] Hj; try lia; simpl; try reflexivity. apply IH. lia. Qed.
    Lemma firstn_set {X} (l : list X) i v : (i < length l)%nat -> firstn (S i) (list_set l i v) = firstn i l ++ [v].
    Proof. revert i. induction l as [|x l IH]; intros [|i] Hi; simpl in *; try lia; [reflexivity|]. rewrite <- IH by lia. reflexivity. Qed.
    Lemma krel_col k A B j : krel k A B -> (j < k)%nat -> mcol A j = mcol B j.
    Proof. intros (_ & _ & _ & H) Hj. unfold mcol. rewrite <- (nth_firstn _ k) by exact Hj. rewrite H, nth_firstn by exact Hj. reflexivity. Qed.
    Lemma krel_all k A B : (ns <= k)%nat -> krel k A B -> A = B.
    Proof. intros Hk (A1 & A2 & A3 & A4). rewrite !firstn_all2 in A4 by lia. destruct A, B. cbn in * . congruence. Qed.
    Lemma krel_refl k A : length (mcols A) = ns -> krel k A A.
    Proof. intros H. repeat split; assumption. Qed.
    Lemma krel_set i A B v : krel i A B -> rrel (krel (S i)) (mset_col A i v) (mset_col B i v).
    Proof.
      intros (A1 & A2 & A3 & A4). unfold mset_col, ncols. rewrite A1, A2, A3.
      destruct ((i <? ns)%nat && (length v =? nrows B)%nat) eqn:Ec; simpl; [|reflexivity].
      apply andb_prop in Ec. destruct Ec as [Ec _]. apply Nat.ltb_lt in Ec.
      split; [reflexivity|]. cbn [mcols]. rewrite !ErkProofs.list_set_length. split; [exact A2|]. split; [exact A3|].
      rewrite !firstn_set by lia. rewrite A4. reflexivity.
    Qed.

    Lemma l_stages t dt y A B ev : krel (stage_iter_start sc) A B ->
      mrel wl (fun a b => a = b /\ length (mcols (fst a)) = ns) (erk_stages_loop F sc (sh t) dt y A ev) (erk_stages_loop shF sc t dt y B ev).
    Proof.
      intros HK. unfold erk_stages_loop. eapply mrel_conseq; [|apply (mrel_foldM_seq wl (fun k a b => krel k (fst a) (fst b) /\ snd a = snd b)); [|split; [exact HK|reflexivity]]].
      - intros [A' e] [B' e'] [H1 H2]. simpl in H1, H2. subst e'. split; [|apply H1]. f_equal. eapply krel_all; [|exact H1]. lia.
      - intros i [A' e] [B' e'] _ [H1 H2]. simpl in H1, H2. subst e'. unfold erk_stage.
        assert (Harg : erk_stage_arg sc y dt A' i = erk_stage_arg sc y dt B' i).
        { unfold erk_stage_arg. assert (Hl : forall l a, (forall j, In j l -> (j < i)%nat) ->
            foldR (fun j tmp => (a <-- mget (sc_A sc) i j ;; k <-- mcol A' j ;; vadd tmp (vscale (dt *. a) k))%mon) l a =
            foldR (fun j tmp => (a <-- mget (sc_A sc) i j ;; k <-- mcol B' j ;; vadd tmp (vscale (dt *. a) k))%mon) l a).
          { induction l as [|j l IH]; intros a Hj; [reflexivity|]. cbn [foldR]. rewrite (krel_col i A' B' j H1) by (apply Hj; left; reflexivity).
            match goal with |- rbind ?x _ = _ => destruct x end; [apply IH; intros; apply Hj; right; assumption|reflexivity]. }
          apply Hl. intros j Hj. apply in_seq in Hj. lia. }
        rewrite Harg. next. next. eapply mrel_bind; [rewrite <- sh_add; apply l_fun|]. intros k ? <-.
        eapply mrel_bind; [apply mrel_lift, krel_set, H1|]. intros A'' B'' H3. apply mrel_ret. split; [exact H3|reflexivity].
    Qed.
    Lemma l_control mo dt Ks y yn dy : mrel wl eq (@erk_control T HS HL E1 St opts sc mo dt Ks y yn dy) (@erk_control T HS HL E2 St opts sc mo dt Ks y yn dy).
    Proof. unfold erk_control. next. next. next. next. same. Qed.
    Lemma l_erk_write t y : mrel wl eq (erk_write (St := St) oo (sh t) y) (erk_write oo t y).
    Proof. unfold erk_write. destruct (write_to_file oo); [|same]. destruct (output_stream oo); [|same]. apply l_write. Qed.

    (** the stages recorded with the initial value: nothing but uninitialised memory *)
    Definition filled (E : Env T) (l : list T) : Prop := Forall (fun x => x = @junk T E) l.
    Lemma filled_junk (E : Env T) n m : filled E (vectorise (mtab n m (fun _ _ => @junk T E))).
    Proof.
      unfold filled. apply Forall_forall. intros x Hx. unfold vectorise in Hx. apply in_concat in Hx. destruct Hx as (c & Hc & Hx).
      unfold mtab in Hc. cbn [mcols] in Hc. unfold vtab in Hc. apply in_map_iff in Hc. destruct Hc as (j & <- & _).
      apply in_map_iff in Hx. destruct Hx as (i & <- & _). reflexivity.
    Qed.
    Definition esol (a b : erk_output T) : Prop :=
      eo_status a = eo_status b /\ eo_t_vals a = map sh (eo_t_vals b) /\ eo_y_vals a = eo_y_vals b /\
      (exists K1 K2 K, eo_stages a = K1 :: K /\ eo_stages b = K2 :: K /\ filled E1 K1 /\ filled E2 K2) /\
      eo_err_est a = eo_err_est b /\ eo_err a = eo_err b /\ eo_accept_frac a = eo_accept_frac b /\
      eo_attempt a = eo_attempt b /\ eo_reject_err a = eo_reject_err b /\ eo_fun_evals a = eo_fun_evals b.
    Definition estate (a b : erk_state T) : Prop :=
      es_t a = sh (es_t b) /\ es_y a = es_y b /\ es_dt a = es_dt b /\ es_step a = es_step b /\
      krel (stage_iter_start sc) (es_Ks a) (es_Ks b) /\ es_err a = es_err b /\ es_err_est a = es_err_est b /\ esol (es_sol a) (es_sol b).
    Lemma l_body mo s1 s2 : estate s1 s2 -> mrel wl (srel estate esol)
      (@erk_body T HS HL E1 St F (sh t1) opts sc oo mo s1) (@erk_body T HS HL E2 St shF t1 opts sc oo mo s2).
    Proof.
      intros (H1 & H2 & H3 & H4 & H5 & H6 & H7 & H8). destruct s1 as [u1 y1 d1 p1 K1 e1 q1 l1], s2 as [u2 y2 d2 p2 K2 e2 q2 l2].
      cbn [es_t es_y es_dt es_step es_Ks es_err es_err_est es_sol] in * . subst u1 y2 d2 p2 e2 q2. unfold erk_body.
      cbn [es_t es_y es_dt es_step es_Ks es_err es_err_est es_sol]. rewrite l_clip. set (h := if u2 +. d1 >?. t1 then t1 -. u2 else d1).
      destruct H8 as (S1 & S2 & S3 & S4 & S5 & S6 & S7 & S8 & S9 & S10). rewrite S8, S9, S10.
      destruct ((0 <=? eo_max_steps opts)%Z && (eo_max_steps opts <? p1)%Z).
      { apply mrel_ret. unfold srel, esol. simpl. repeat split; assumption. }
      eapply mrel_bind; [apply l_stages; exact H5|]. intros [Ks ev] ? [<- LK]. simpl in LK.
      next. next.
      eapply mrel_bind with (R := eq). { destruct (eo_adaptive opts); [apply l_control|same]. }
      intros [[[err est] rej] nd] ? <-.
      eapply mrel_bind; [apply l_erk_write|]. intros ? ? _. destruct rej.
      - apply mrel_ret. unfold srel, estate, esol. simpl. repeat split; try assumption.
      - eapply mrel_bind with (R := fun a b => a = b /\ length (mcols a) = ns).
        { apply mrel_lift_inv. unfold fsal_hook. destruct (sc_FSAL sc); [|intros ? [= <-]; exact LK].
          intros K. unfold mcol. destruct (nth_error _ _); simpl; [|discriminate]. unfold mset_col. destruct (_ && _); [|discriminate]. intros [= <-]. cbn [mcols].
          rewrite ErkProofs.list_set_length. exact LK. }
        intros K' ? [<- LK']. apply mrel_ret. unfold srel, estate, esol. simpl. rewrite sh_add.
        repeat split; try assumption; try congruence.
        + rewrite S2, map_app. simpl. rewrite sh_add. reflexivity.
        + destruct S4 as (Ka & Kb & K & Ea & Eb & Fa & Fb). exists Ka, Kb, (K ++ [vectorise Ks]). rewrite Ea, Eb. repeat (split; [reflexivity|]). split; assumption.
    Qed.
    Lemma l_guts fuel t0 y0 dt : mrel wl esol
      (@erk_guts T HS HL E1 St F (sh t1) opts sc oo fuel (sh t0) y0 dt) (@erk_guts T HS HL E2 St shF t1 opts sc oo fuel t0 y0 dt).
    Proof.
      unfold erk_guts. rewrite l_clip. next. next.
      set (K1 := mtab (length y0) ns (fun _ _ => @junk T E1)). set (K2 := mtab (length y0) ns (fun _ _ => @junk T E2)).
      assert (HK : krel 0 K1 K2) by (repeat split; unfold K1, K2, mtab; cbn [mcols]; unfold vtab; rewrite map_length, seq_length; reflexivity).
      assert (HS0 : esol (ErkOutput SUCCESS [sh t0] [y0] [vectorise K1] [vzeros (length y0)] [slit 0 0] None None 0 0 0)
                         (ErkOutput SUCCESS [t0] [y0] [vectorise K2] [vzeros (length y0)] [slit 0 0] None None 0 0 0)).
      { repeat split. exists (vectorise K1), (vectorise K2), []. repeat (split; [reflexivity|]). split; apply filled_junk. }
      eapply mrel_bind with (R := fun a b => krel (stage_iter_start sc) (fst a) (fst b) /\ esol (snd a) (snd b)).
      { unfold stage_iter_start. destruct (sc_FSAL sc).
        - eapply mrel_bind; [apply l_fun|]. intros k ? <-. eapply mrel_bind; [apply mrel_lift, krel_set, HK|]. intros A B HAB.
          apply mrel_ret. split; [exact HAB|]. destruct HS0 as (S1 & S2 & S3 & S4 & S5 & S6 & S7 & S8 & S9 & S10). repeat split; assumption.
        - apply mrel_ret. split; assumption. }
      intros [A l1] [B l2] [HAB Hl]. simpl in HAB, Hl.
      eapply mrel_bind with (R := srel estate esol).
      { apply mrel_while.
        - intros s1 s2 (Ht & _). rewrite Ht. apply sh_lt.
        - intros s1 s2 Hs _. apply l_body, Hs.
        - unfold estate. simpl. split; [reflexivity|]. split; [reflexivity|]. split; [reflexivity|]. split; [reflexivity|]. split; [exact HAB|]. split; [reflexivity|]. split; [reflexivity|exact Hl]. }
      intros [x1|x1] [x2|x2] Hx; simpl in Hx; try contradiction; apply mrel_ret; [|exact Hx].
      destruct Hx as (_ & _ & _ & H4 & _ & _ & _ & (S1 & S2 & S3 & S4 & S5 & S6 & S7 & S8 & S9 & S10)). unfold esol. simpl. rewrite H4, S8. repeat split; assumption.
    Qed.
  End Erk.
  Lemma l_erk fuel t0 t1 y0 opts oo m dt : mrel wl esol
    (@erk_odeint T HS HL E1 St fuel F (sh t0) (sh t1) y0 opts oo m dt) (@erk_odeint T HS HL E2 St fuel shF t0 t1 y0 opts oo m dt).
  Proof. unfold erk_odeint. next. next. apply l_guts. Qed.

  (** ** Implicit *)
  Section Stages.
    Context (y : list T) (t dt : T) (sc : solver_coeffs T).
    Local Notation ns := (length (sc_b sc)).
    Local Notation n := (length y).
    Lemma l_R Y I : length Y = (ns * n)%nat -> mrel wl eq (@construct_R T HS HL E1 St F y (sh t) dt sc Y I) (@construct_R T HS HL E2 St shF y t dt sc Y I).
    Proof.
      intros LY. unfold construct_R.
      eapply mrel_bind with (R := eq).
      - eapply mrel_conseq; [|apply (mrel_foldM_seq wl (fun k a b => length a = (ns * n)%nat /\ length b = (ns * n)%nat /\ firstn (n * k) a = firstn (n * k) b))].
        + intros a b (H1 & H2 & H3). rewrite !firstn_all2 in H3 by nia. exact H3.
        + intros k a b Hk (H1 & H2 & H3). next. next. next.
          eapply mrel_bind; [rewrite <- sh_add; apply l_fun|]. intros v ? <-. apply mrel_lift. unfold set_subvec. rewrite H1, H2.
          destruct ((0 <? n)%nat && (n * k + n <=? ns * n)%nat && (length v =? n)%nat) eqn:Ec; simpl; [|reflexivity].
          apply andb_prop in Ec. destruct Ec as [Ec E3]. apply andb_prop in Ec. destruct Ec as [_ E4]. apply Nat.eqb_eq in E3. apply Nat.leb_le in E4.
          rewrite !app_length, !firstn_length, !skipn_length, H1, H2, E3.
          split; [lia|]. split; [lia|]. rewrite H3, !app_assoc. replace (n * S k)%nat with (length (firstn (n * k) b ++ v)) by (rewrite app_length, firstn_length; lia).
          rewrite !(firstn_app _ (firstn (n * k) b ++ v)), !Nat.sub_diag, !firstn_all. reflexivity.
        + rewrite !repeat_length, LY, Nat.mul_0_r. repeat split.
      - intros Fv ? <-. next. same.
    Qed.
    Lemma l_refresh plu L : mrel wl eq (@refresh_jacobi_matrix T HS HL E1 St F y (sh t) dt sc plu L) (@refresh_jacobi_matrix T HS HL E2 St shF y t dt sc plu L).
    Proof.
      unfold refresh_jacobi_matrix. eapply mrel_bind; [apply l_jac|]. intros J ? <-. next. rewrite Hnd.
      eapply mrel_bind with (R := eq). { destruct (plu && negb _); [|same]. destruct (la_lu _); same. } intros ? ? <-. same.
    Qed.
    Lemma l_solve ad plu mi rj xt Rt a b : mrel wl eq (@newton_solve_stages T HS HL E1 St F y (sh t) dt sc ad plu mi rj xt Rt a b)
      (@newton_solve_stages T HS HL E2 St shF y t dt sc ad plu mi rj xt Rt a b).
    Proof.
      unfold newton_solve_stages. eapply mrel_bind; [apply l_refresh|]. intros [[J JY] L] ? <-.
      eapply mrel_bind; [apply l_R, repeat_length|]. intros R ? <-. next.
      eapply mrel_bind with (R := srel (fun s1 s2 => s1 = s2 /\ length (sg_Y s1) = (ns * n)%nat) eq).
      - apply mrel_while; [intros s1 s2 [<- _]; reflexivity| |split; [reflexivity|apply repeat_length]].
        intros s1 s2 [<- LY] _. unfold stage_body. next. next.
        eapply mrel_bind; [apply mrel_lift_inv with (P := fun Y => length Y = (ns * n)%nat); intros Y EY; apply vadd_inv in EY; destruct EY as (_ & _ & EY); congruence|].
        intros Y ? [<- LY']. eapply mrel_bind; [apply l_R, LY'|]. intros R' ? <-. next.
        destruct (_ || _); [apply mrel_ret; split; [reflexivity|exact LY']|]. destruct (rj =? 0)%Z; [same|].
        destruct (Z.rem _ _ =? 0)%Z; [|apply mrel_ret; split; [reflexivity|exact LY']].
        eapply mrel_bind; [apply l_refresh|]. intros [[J' JY'] L'] ? <-. apply mrel_ret. split; [reflexivity|exact LY'].
      - intros [s1|[]] [s2|[]] Hs; simpl in Hs; try contradiction. destruct Hs as [<- _]. same.
    Qed.
  End Stages.
  Lemma l_estimate opts sc dw d2w t dt y Y J alt : mrel wl eq (irk_estimate F opts sc dw d2w (sh t) dt y Y J alt) (irk_estimate shF opts sc dw d2w t dt y Y J alt).
  Proof.
    unfold irk_estimate. next. eapply mrel_bind with (R := eq). { destruct (io_adaptive opts); same. } intros ? ? <-.
    eapply mrel_bind; [apply l_fun|]. intros ? ? <-. next. next. next. next. next. next. destruct alt; [|same]. next.
    eapply mrel_bind; [apply l_fun|]. intros ? ? <-. next. next. next. same.
  Qed.
  Definition isol (a b : irk_output T) : Prop :=
    io_status a = io_status b /\ io_t_vals a = map sh (io_t_vals b) /\ io_y_vals a = io_y_vals b /\ io_stages a = io_stages b /\
    io_err_est a = io_err_est b /\ io_err a = io_err b /\ io_accept_frac a = io_accept_frac b /\ io_count a = io_count b.
  Definition istate (a b : irk_state T) : Prop :=
    is_t a = sh (is_t b) /\ is_y a = is_y b /\ is_dt a = is_dt b /\ is_step a = is_step b /\ is_alt a = is_alt b /\ is_maxit a = is_maxit b /\
    is_relax a = is_relax b /\ is_dts0 a = is_dts0 b /\ is_dts1 a = is_dts1 b /\ is_err0 a = is_err0 b /\ isol (is_sol a) (is_sol b).
  Lemma isol_count a b c : isol a b -> isol (with_count a c) (with_count b c).
  Proof. unfold isol, with_count. simpl. tauto. Qed.
  Lemma l_record oo sc a b step t y est err : isol a b -> mrel wl isol (irk_record (St := St) sc oo a step (sh t) y est err) (irk_record sc oo b step t y est err).
  Proof.
    intros Hs. unfold irk_record. destruct (_ =? 0)%Z; [same|]. destruct (_ =? 0)%Z; [|apply mrel_ret; exact Hs].
    eapply mrel_bind with (R := eq). { destruct (write_to_file oo); [|same]. destruct (output_stream oo); [apply l_write|same]. } intros ? ? _.
    apply mrel_ret. destruct (store_in_vectors oo); [|exact Hs]. destruct Hs as (S1 & S2 & S3 & S4 & S5 & S6 & S7 & S8).
    unfold isol. simpl. rewrite S2, S3, S4, S5, S6, map_app. repeat split; assumption.
  Qed.
  Lemma l_irk_body t1 opts sc oo no mo dw d2w s1 s2 : istate s1 s2 -> mrel wl (srel istate isol)
    (@irk_body T HS HL E1 St F (sh t1) opts sc oo no mo dw d2w s1) (@irk_body T HS HL E2 St shF t1 opts sc oo no mo dw d2w s2).
  Proof.
    destruct s1 as [u1 y1 d1 p1 a1 m1 r1 x1 z1 e1 l1], s2 as [u2 y2 d2 p2 a2 m2 r2 x2 z2 e2 l2]. unfold istate.
    cbn [is_t is_y is_dt is_step is_alt is_maxit is_relax is_dts0 is_dts1 is_err0 is_sol].
    intros (-> & <- & <- & <- & <- & <- & <- & <- & <- & <- & Hs). unfold irk_body.
    cbn [is_t is_y is_dt is_step is_alt is_maxit is_relax is_dts0 is_dts1 is_err0 is_sol]. rewrite l_clip. set (h := if u2 +. d1 >?. t1 then t1 -. u2 else d1).
    assert (Hc : io_count l1 = io_count l2) by apply Hs. rewrite Hc.
    destruct ((0 <=? io_max_steps opts)%Z && (io_max_steps opts <? p1)%Z).
    { apply mrel_ret. unfold srel, isol in * . simpl. tauto. }
    eapply mrel_bind; [apply l_solve|]. intros sr ? <-.
    destruct (negb (sr_status sr =? Newton.SUCCESS)%Z).
    { destruct (negb (io_adaptive opts)); [apply mrel_ret; unfold srel, isol in * ; simpl; tauto|].
      eapply mrel_bind with (R := eq). { destruct (_ >? _)%Z; [|same]. next. same. } intros [mi re] ? <-.
      apply mrel_ret. unfold srel, istate. simpl. repeat (split; [reflexivity|]). apply isol_count, Hs. }
    eapply mrel_bind; [apply l_estimate|]. intros [[yn est] calls] ? <-. next. next. next.
    match goal with |- mrel _ _ (if ?b then _ else _) _ => destruct b end.
    - apply mrel_ret. unfold srel, istate. simpl. repeat (split; [reflexivity|]). apply isol_count, Hs.
    - rewrite <- sh_add. eapply mrel_bind; [apply l_record, isol_count, Hs|]. intros sa sb Hab. apply mrel_ret. unfold srel, istate. simpl. repeat (split; [reflexivity|]). exact Hab.
  Qed.
  Lemma l_irk fuel t0 t1 y0 opts oo m dt : mrel wl isol
    (@irk_odeint T HS HL E1 St fuel F (sh t0) (sh t1) y0 opts oo m dt) (@irk_odeint T HS HL E2 St fuel shF t0 t1 y0 opts oo m dt).
  Proof.
    unfold irk_odeint. rewrite (coefficients_env E1 E2 m Hnd). next. next. unfold irk_guts. rewrite l_clip. next. next. next. next. next. next. next.
    eapply mrel_bind with (R := srel istate isol).
    { apply mrel_while.
      - intros s1 s2 (Ht & _). rewrite Ht. apply sh_lt.
      - intros s1 s2 Hs _. apply l_irk_body, Hs.
      - unfold istate, isol. simpl. repeat (split; [reflexivity|]). reflexivity. }
    intros [x1|x1] [x2|x2] Hx; simpl in Hx; try contradiction; apply mrel_ret; [|exact Hx].
    destruct Hx as (_ & _ & _ & H4 & _ & _ & _ & _ & _ & _ & (S1 & S2 & S3 & S4 & S5 & S6 & S7 & S8)). unfold isol. simpl. rewrite H4, S8. repeat split; assumption.
  Qed.

  (** ** Multistep *)
  Lemma l_term t hist c i : mrel wl eq (@ab_term T HS E1 St F (sh t) hist c i) (@ab_term T HS E2 St shF t hist c i).
  Proof. unfold ab_term. rewrite Hnd. next. eapply mrel_bind; [apply l_fun|]. intros ? ? <-. same. Qed.
  Lemma l_step order Y t dt hist : mrel wl eq (@adams_bashforth_step T HS E1 St F order Y (sh t) dt hist) (@adams_bashforth_step T HS E2 St shF order Y t dt hist).
  Proof.
    unfold adams_bashforth_step. rewrite Hnd. destruct (order =? 1)%Z.
    - next. eapply mrel_bind; [apply l_fun|]. intros ? ? <-. same.
    - destruct (_ && _); [|eapply mrel_bind; [apply mrel_assert; reflexivity|]; intros ? ? _; same].
      eapply mrel_bind with (R := eq); [|intros ? ? <-; same]. unfold ab_sum. destruct (nth _ _ _) as [|c0 cs]; [same|].
      eapply mrel_bind; [apply l_term|]. intros ? ? <-. apply mrel_foldM; [|reflexivity]. intros p ac ? _ <-.
      eapply mrel_bind; [apply l_term|]. intros ? ? <-. same.
  Qed.
  Definition hrel (a b : list T * list (list T)) : Prop := fst a = map sh (fst b) /\ snd a = snd b.
  Lemma l_bootstrap fuel order y t dt : mrel wl hrel (@bootstrap_history T HS HL E1 St fuel F order y (sh t) dt) (@bootstrap_history T HS HL E2 St fuel shF order y t dt).
  Proof.
    unfold bootstrap_history. eapply mrel_bind with (R := fun a b => fst (fst a) = sh (fst (fst b)) /\ snd (fst a) = map sh (snd (fst b)) /\ snd a = snd b).
    - apply mrel_foldM; [|repeat split]. intros i [[ta tsa] ysa] [[tb tsb] ysb] _ (H1 & H2 & H3). simpl in H1, H2, H3. subst ta tsa ysa.
      next. rewrite <- sh_add. eapply mrel_bind; [apply l_irk|]. intros sa sb (S1 & S2 & S3 & _). rewrite S2, S3, map_length. next.
      apply mrel_ret. simpl. rewrite map_app. repeat split.
    - intros [[ta tsa] ysa] [[tb tsb] ysb] (H1 & H2 & H3). apply mrel_ret. split; assumption.
  Qed.
  Lemma l_load ha hb buf : hrel ha hb -> rrel (fun a b => fst (fst a) = sh (fst (fst b)) /\ snd (fst a) = snd (fst b) /\ snd a = snd b)
    (load_history ha buf) (load_history hb buf).
  Proof.
    intros [H1 H2]. unfold load_history. rewrite H1, H2, map_length, nth_error_map. destruct (cb_pushes buf (snd hb)) as [h|e]; simpl; [|reflexivity].
    destruct (nth_error (fst hb) _); simpl; [|reflexivity]. destruct (nth_error (snd hb) _); simpl; [repeat split|reflexivity].
  Qed.
  Definition mstate (a b : ms_state T) : Prop :=
    ms_t a = sh (ms_t b) /\ ms_y a = ms_y b /\ ms_hist a = ms_hist b /\ ms_ts a = map sh (ms_ts b) /\ ms_ys a = ms_ys b /\ ms_newton a = ms_newton b.
  Definition msol (a b : basic_output T) : Prop := bo_status a = bo_status b /\ bo_t_vals a = map sh (bo_t_vals b) /\ bo_y_vals a = bo_y_vals b.
  Lemma l_ab fuel t0 t1 y0 order dt : mrel wl msol
    (@adams_bashforth T HS HL E1 St fuel F (sh t0) (sh t1) y0 order dt) (@adams_bashforth T HS HL E2 St fuel shF t0 t1 y0 order dt).
  Proof.
    unfold adams_bashforth. rewrite l_clip. next. next. eapply mrel_bind; [apply l_bootstrap|]. intros ha hb Hh.
    eapply mrel_bind; [apply mrel_lift, l_load, Hh|]. intros [[ta ya] ba] [[tb yb] bb] (H1 & H2 & H3). simpl in H1, H2, H3. subst ta ya ba. destruct Hh as [Hh1 Hh2].
    eapply mrel_bind with (R := srel mstate msol).
    - apply mrel_while; [intros s1 s2 (Ht & _); rewrite Ht; apply sh_lt| |repeat split; assumption].
      intros s1 s2 (S1 & S2 & S3 & S4 & S5 & S6) _. unfold ab_body. rewrite S1, S2, S3, S4, S5, S6.
      eapply mrel_bind; [apply l_step|]. intros ? ? <-. next. apply mrel_ret. unfold srel, mstate. simpl. rewrite map_app, sh_add. simpl. rewrite sh_add. repeat split.
    - intros [s1|s1] [s2|s2] Hs; simpl in Hs; try contradiction; apply mrel_ret; [|exact Hs]. destruct Hs as (S1 & S2 & S3 & S4 & S5 & S6). repeat split; assumption.
  Qed.
  Lemma l_bdf fuel t0 t1 y0 order dt : mrel wl msol
    (@bdf T HS HL E1 St fuel F (sh t0) (sh t1) y0 order dt) (@bdf T HS HL E2 St fuel shF t0 t1 y0 order dt).
  Proof.
    unfold bdf. destruct (order >? 6)%Z; [apply mrel_ret; repeat split|]. destruct (order <=? 0)%Z; [apply mrel_ret; repeat split|].
    rewrite l_clip. next. next. eapply mrel_bind; [apply l_bootstrap|]. intros ha hb Hh.
    eapply mrel_bind; [apply mrel_lift, l_load, Hh|]. intros [[ta ya] ba] [[tb yb] bb] (H1 & H2 & H3). simpl in H1, H2, H3. subst ta ya ba. destruct Hh as [Hh1 Hh2].
    eapply mrel_bind with (R := srel mstate msol).
    - apply mrel_while; [intros s1 s2 (Ht & _); rewrite Ht; apply sh_lt| |repeat split; assumption].
      intros s1 s2 (S1 & S2 & S3 & S4 & S5 & S6) _. unfold bdf_body. rewrite S1, S2, S3, S4, S5, S6, <- sh_add.
      eapply mrel_bind; [apply mrel_lift, rrel_eq; unfold interpolation_part; rewrite Hnd; reflexivity|]. intros part ? <-.
      eapply mrel_bind with (R := eq).
      { intros w1 w2 Hw. unfold on_copy. destruct Hw as (Hw1 & Hw2). rewrite Hw1.
        match goal with |- context [@newton_iterate T HS HL E1 St ?G ?x ?o ?st ?q] => pose proof (l_newton E1 E2 G x o st q eq_refl (w_st w2) (w_st w2) eq_refl) as Hn end.
        match type of Hn with match ?p with _ => _ end => destruct p as [u1 [xa|ea]] end;
        match type of Hn with match ?p with _ => _ end => match goal with |- context [@newton_iterate T HS HL E2 St ?G ?x ?o ?st ?q ?w] => change (@newton_iterate T HS HL E2 St G x o st q w) with p end; destruct p as [u2 [xb|eb]] end; try contradiction; destruct Hn as [_ Hn]; split; (split; assumption) || assumption. }
      intros [[yn st] pr] ? <-. destruct (negb _); [apply mrel_ret; repeat split|]. next. apply mrel_ret. unfold srel, mstate. simpl. rewrite map_app. repeat split.
    - intros [s1|s1] [s2|s2] Hs; simpl in Hs; try contradiction; apply mrel_ret; [|exact Hs]. destruct Hs as (S1 & S2 & S3 & S4 & S5 & S6). repeat split; assumption.
  Qed.
End Lock.
