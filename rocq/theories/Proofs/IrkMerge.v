(** Merging solutions; what the stage solver reports. *)
From Coq Require Import Reals Lra Sorting.Sorted.
From Verif Require Import Model.Base Model.Scalar Model.LinAlg Model.Newton Model.Enums Model.Options Model.Coeffs Model.IrkCoeffs Model.Irk.
From Verif Require Import Spec.Sums Spec.Observe Spec.ErkSpec Spec.NewtonSpec Spec.IrkSpec Spec.IrkRunSpec.
From Verif Require Import Proofs.LoopProofs Proofs.ErkProofs Proofs.NewtonProofs Proofs.IrkProofs Proofs.IrkRun Proofs.IrkGeneric Proofs.IrkResults Proofs.IrkTimes Proofs.IrkFinal.

Section Merge.
  Context {T : Type} `{Scalar T}.
  Local Open Scope sc_scope.
  Lemma merge_ok (a b c : irk_output T) : merge_rk_output a b = Ok c ->
    io_t_vals c = io_t_vals a ++ io_t_vals b /\ io_y_vals c = io_y_vals a ++ io_y_vals b /\ io_stages c = io_stages a ++ io_stages b /\
    io_err_est c = io_err_est a ++ io_err_est b /\ io_err c = io_err a ++ io_err b /\
    (forall k, Z.testbit (io_status c) k = Z.testbit (io_status a) k || Z.testbit (io_status b) k) /\
    (io_status c = 0%Z <-> io_status a = 0%Z /\ io_status b = 0%Z) /\
    (forall g, In g [ct_attempt; ct_reject_newton; ct_reject_err; ct_newton_success; ct_newton_incr_diverge; ct_newton_iter_error_too_large; ct_newton_maxit_exceed] ->
       g (io_count c) = (g (io_count a) + g (io_count b))%nat) /\
    ct_fun_evals (io_count c) = ct_fun_evals (io_count a) /\ ct_jac_evals (io_count c) = ct_jac_evals (io_count a).
  Proof.
    unfold merge_rk_output. destruct (io_elapsed_time a), (io_elapsed_time b), (io_accept_frac a), (io_accept_frac b); try discriminate. intros [= <-]. cbn.
    repeat (split; [reflexivity|]). split; [intros k; apply Z.lor_spec|]. split; [apply Z.lor_eq_0_iff|]. split; [|split; reflexivity].
    intros g Hg. repeat (destruct Hg as [<-|Hg]; [reflexivity|]). destruct Hg.
  Qed.
  Lemma merge_defined (a b : irk_output T) : (exists c, merge_rk_output a b = Ok c) <->
    io_elapsed_time a <> None /\ io_elapsed_time b <> None /\ io_accept_frac a <> None /\ io_accept_frac b <> None.
  Proof.
    unfold merge_rk_output. destruct (io_elapsed_time a), (io_elapsed_time b), (io_accept_frac a), (io_accept_frac b); split;
      try (intros _; repeat split; discriminate); try (intros [c E]; discriminate E); try (intros (H1 & H2 & H3 & H4); congruence); intros; eexists; reflexivity.
  Qed.
  Lemma merge_undefined (a b : irk_output T) : io_elapsed_time a = None \/ io_elapsed_time b = None -> merge_rk_output a b = Err EUB.
  Proof. unfold merge_rk_output. intros [->| ->]; [reflexivity|]. destruct (io_elapsed_time a); reflexivity. Qed.
End Merge.

Section MergeRuns.
  Context {T : Type} {HS : Scalar T} {HL : LinAlg T} {HE : Env T} {St : Type}.
  Lemma irk_stopped_unmerged (F : functor T St) fuel t0 t1 y0 opts oo m dt w w' (sol other : irk_output T) : irk_odeint fuel F t0 t1 y0 opts oo m dt w = (w', Ok sol) ->
    (io_status sol <> SUCCESS -> merge_rk_output sol other = Err EUB /\ merge_rk_output other sol = Err EUB) /\
    (io_status sol = SUCCESS -> exists c, merge_rk_output sol sol = Ok c).
  Proof.
    intros Hr. destruct (irk_accounting F fuel t0 t1 y0 opts oo m dt w w' sol Hr) as (_ & _ & _ & _ & _ & [(E1 & _ & E2 & E3)|[(E1 & _ & E2 & E3)|(E1 & _ & E2 & E3)]]).
    - split; [congruence|]. intros _. apply merge_defined. rewrite E2, E3. repeat split; discriminate.
    - split; [|rewrite E1; discriminate]. intros _. split; apply merge_undefined; tauto.
    - split; [|rewrite E1; discriminate]. intros _. split; apply merge_undefined; tauto.
  Qed.
End MergeRuns.

Section MergeR.
  Local Open Scope R_scope.
  Lemma merge_assoc (a b c ab bc x y : irk_output R) : io_t_vals a <> [] -> io_t_vals b <> [] -> io_t_vals c <> [] ->
    merge_rk_output a b = Ok ab -> merge_rk_output ab c = Ok x -> merge_rk_output b c = Ok bc -> merge_rk_output a bc = Ok y -> x = y.
  Proof.
    unfold merge_rk_output. destruct (io_elapsed_time a) as [ea|], (io_elapsed_time b) as [eb|], (io_accept_frac a) as [fa|], (io_accept_frac b) as [fb|]; try discriminate.
    intros La Lb Lc [= <-]. cbn [io_elapsed_time io_accept_frac]. destruct (io_elapsed_time c) as [ec|], (io_accept_frac c) as [fc|]; try discriminate.
    intros [= <-] [= <-]. cbn [io_elapsed_time io_accept_frac]. intros [= <-].
    cbn [io_status io_t_vals io_y_vals io_stages io_err_est io_err io_count ct_attempt ct_reject_newton ct_reject_err ct_newton_success ct_newton_incr_diverge ct_newton_iter_error_too_large ct_newton_maxit_exceed ct_fun_evals ct_jac_evals].
    f_equal; try (symmetry; apply app_assoc).
    - symmetry. apply Z.lor_assoc.
    - simpl. f_equal. ring.
    - f_equal. rewrite !app_length, !Nat2Z.inj_add. cbn [sZ RScalar sadd smul sdiv]. rewrite !plus_IZR.
      assert (P : forall l : list R, l <> [] -> 0 < IZR (Z.of_nat (length l))) by (intros [|u l] Hl; [congruence|]; apply IZR_lt; simpl; lia).
      pose proof (P _ La). pose proof (P _ Lb). pose proof (P _ Lc). field. repeat split; lra.
    - f_equal; lia.
  Qed.
End MergeR.

Section MergeTimes.
  Local Open Scope R_scope.
  Context {LA : LinAlg R} {HE : Env R} {St : Type}.
  Lemma sorted_app_le l1 l2 m : StronglySorted Rlt l1 -> StronglySorted Rlt l2 -> Forall (fun t => t <= m) l1 -> Forall (fun t => m <= t) l2 -> StronglySorted Rle (l1 ++ l2).
  Proof.
    intros S1 S2 F1 F2. induction S1 as [|a l S1 IH Hl]; simpl.
    - induction S2 as [|b l S2 IH Hl]; constructor.
      + apply IH. inversion F2; assumption.
      + eapply Forall_impl; [|exact Hl]. intros x Hx. lra.
    - inversion F1; subst. constructor; [apply IH; assumption|]. apply Forall_app. split.
      + eapply Forall_impl; [|exact Hl]. intros x Hx. lra.
      + eapply Forall_impl; [|exact F2]. intros x Hx. lra.
  Qed.
  Lemma last_any (l : list R) d d' : l <> [] -> last l d = last l d'.
  Proof. induction l as [|a [|b l] IH]; intros Hl; [congruence|reflexivity|]. change (last (b :: l) d = last (b :: l) d'). apply IH. discriminate. Qed.
  Lemma last_app_ne (l l' : list R) d : l' <> [] -> last (l ++ l') d = last l' d.
  Proof.
    intros Hl. induction l as [|a l IH]; [reflexivity|]. simpl app. destruct (l ++ l') eqn:E; [apply app_eq_nil in E; tauto|]. exact IH.
  Qed.
  Lemma merged_times (F1 F2 : functor R St) fuel1 fuel2 t0 t1 t2 y0 y1 opts1 opts2 oo m1 m2 dt1 dt2 w1 w1' w2 w2' sol1 sol2 sol : t0 < t1 -> t1 < t2 -> 0 < dt1 -> 0 < dt2 ->
    store_in_vectors oo = true -> output_interval oo = 1%Z ->
    irk_odeint fuel1 F1 t0 t1 y0 opts1 oo m1 dt1 w1 = (w1', Ok sol1) -> irk_odeint fuel2 F2 t1 t2 y1 opts2 oo m2 dt2 w2 = (w2', Ok sol2) ->
    merge_rk_output sol1 sol2 = Ok sol ->
    StronglySorted Rle (io_t_vals sol) /\ hd 0 (io_t_vals sol) = t0 /\ last (io_t_vals sol) 0 = t2 /\
    exists l l', io_t_vals sol = l ++ [t1; t1] ++ l'.
  Proof.
    intros H1 H2 H3 H4 Hs Ho R1 R2 Hm. destruct (merge_ok _ _ _ Hm) as (Et & _).
    assert (E : io_status sol1 = SUCCESS /\ io_status sol2 = SUCCESS).
    { split.
      - destruct (Z.eq_dec (io_status sol1) SUCCESS) as [E|E]; [exact E|]. destruct (irk_stopped_unmerged F1 fuel1 t0 t1 y0 opts1 oo m1 dt1 w1 w1' sol1 sol2 R1) as [G _]. destruct (G E) as [G1 _]. congruence.
      - destruct (Z.eq_dec (io_status sol2) SUCCESS) as [E|E]; [exact E|]. destruct (irk_stopped_unmerged F2 fuel2 t1 t2 y1 opts2 oo m2 dt2 w2 w2' sol2 sol1 R2) as [G _]. destruct (G E) as [_ G1]. congruence. }
    destruct E as [E1 E2].
    destruct (irk_times F1 fuel1 t0 t1 y0 opts1 oo m1 dt1 _ _ _ (or_intror (conj H1 H3)) R1 ltac:(lra)) as (S1 & B1 & L1).
    destruct (irk_times F2 fuel2 t1 t2 y1 opts2 oo m2 dt2 _ _ _ (or_intror (conj H2 H4)) R2 ltac:(lra)) as (S2 & B2 & L2).
    specialize (L1 E1 Hs Ho). specialize (L2 E2 Hs Ho).
    destruct (irk_aligned F1 fuel1 t0 t1 y0 opts1 oo m1 dt1 w1 w1' sol1 R1) as (a1 & _ & _ & T1 & _). destruct (irk_aligned F2 fuel2 t1 t2 y1 opts2 oo m2 dt2 w2 w2' sol2 R2) as (a2 & _ & _ & T2 & _).
    rewrite Et. split; [|split; [|split]].
    - apply (sorted_app_le _ _ t1 S1 S2); [eapply Forall_impl; [|exact B1]|eapply Forall_impl; [|exact B2]]; simpl; intros; lra.
    - rewrite T1. reflexivity.
    - rewrite T2 in * . rewrite last_app_ne by discriminate. rewrite <- L2. apply last_any. discriminate.
    - rewrite T2. exists (removelast (io_t_vals sol1)). eexists. assert (Hne : io_t_vals sol1 <> []) by (rewrite T1; discriminate). pose proof (app_removelast_last t0 Hne) as El. rewrite L1 in El. rewrite El at 1. rewrite <- app_assoc. reflexivity.
  Qed.
End MergeTimes.

Section Status.
  Context {T : Type} {HS : Scalar T} {HL : LinAlg T} {HE : Env T} {St : Type}.
  Local Open Scope sc_scope.
  (** the status, for every arithmetic *)
  Lemma stage_status (F : functor T St) y t dt sc adaptive plu maxit refresh xtol Rtol f0 j0 w w' sr :
    ncols (sc_A sc) = length (sc_b sc) -> length (sc_c sc) = length (sc_b sc) -> (0 < length (sc_b sc))%nat ->
    newton_solve_stages F y t dt sc adaptive plu maxit refresh xtol Rtol f0 j0 w = (w', Ok sr) ->
    (sr_status sr = Newton.SUCCESS /\ (1 <= sr_iters sr < maxit)%Z /\ sr_fun sr = (f0 + length (sc_b sc) * (1 + Z.to_nat (sr_iters sr)))%nat /\
       ((sr_res sr <?. Rtol *. Rtol) = true \/ exists Y0 d step, vadd Y0 (vscale step d) = Ok (sr_Y sr) /\ (la_dot d d <?. xtol *. xtol) = true)) \/
    (sr_status sr = MAXIT_EXCEEDED /\ sr_iters sr = Z.max 1 maxit /\ sr_fun sr = (f0 + length (sc_b sc) * Z.to_nat (Z.max 1 maxit))%nat /\
       ((1 < maxit)%Z -> (sr_res sr <?. Rtol *. Rtol) = false)).
  Proof.
    intros HA Hc Hs Hr.
    destruct (newton_solve_stages_inv F y t dt sc false (fun _ => []) ltac:(discriminate) ltac:(discriminate) adaptive plu maxit refresh xtol Rtol HA Hc Hs w w' f0 j0 sr Hr) as (v0 & V & D).
    destruct D as [[T1 T2 T3 T4] Hn DY DJ Dr _ Dst Df _]. destruct Dst as [(S1 & S2 & S3 & S4 & S5)|(S1 & S2 & S3 & S4)].
    - left. assert (0 < length V)%nat by (destruct V; [congruence|simpl; lia]). split; [exact S1|]. split; [lia|]. split; [rewrite Df, S3, Nat2Z.id; reflexivity|].
      unfold stage_converged in S5. rewrite <- Dr in S5. apply orb_true_iff in S5. destruct S5 as [S5|S5]; [left; exact S5|right].
      destruct (exists_last S2) as (V' & v & ->). rewrite last_last in * .
      assert (exists u, nth_error (v0 :: V' ++ [v]) (length V') = Some u) as [u Hu].
      { destruct (nth_error (v0 :: V' ++ [v]) (length V')) eqn:E; [eauto|]. apply nth_error_None in E. simpl in E. rewrite app_length in E. simpl in E. lia. }
      destruct (T3 (length V') u v Hu) as (JY & _ & _ & Hv).
      { cbn [nth_error]. rewrite nth_error_app2, Nat.sub_diag by lia. reflexivity. }
      exists (v_x u), (v_d v), (stage_step adaptive u). split; [rewrite DY; exact Hv|exact S5].
    - right. split; [exact S1|]. split; [exact S2|]. split; [rewrite Df; f_equal; f_equal; lia|]. intros Hm. rewrite Forall_forall in S4.
      assert (Hl : In (last V v0) V). { destruct V as [|u V]; [simpl in S3; lia|]. clear. revert u. induction V as [|x V IH]; intros u; [left; reflexivity|]. right. apply (IH x). }
      specialize (S4 _ Hl). unfold stage_converged in S4. apply orb_false_iff in S4. rewrite Dr. apply S4.
  Qed.
End Status.
