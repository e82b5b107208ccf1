(** Numbers of calls; equivalence of options. *)
From Verif Require Import Model.Base Model.Scalar Model.LinAlg Model.Newton Spec.Sums Spec.ErkSpec Spec.NewtonSpec
  Proofs.LoopProofs Proofs.NewtonProofs Proofs.NewtonTotal Proofs.NewtonReal Proofs.NewtonLog Proofs.NewtonFinal.

Section Counts.
  Context {T : Type} {HS : Scalar T} {HL : LinAlg T} {HE : Env T} {St : Type} (F : nfunctor T St).
  Lemma count_nfun_app (l1 l2 : list (ncall T)) : count_nfun (l1 ++ l2) = count_nfun l1 + count_nfun l2.
  Proof. unfold count_nfun. rewrite filter_app, app_length. reflexivity. Qed.
  Lemma count_njac_app (l1 l2 : list (ncall T)) : count_njac (l1 ++ l2) = count_njac l1 + count_njac l2.
  Proof. unfold count_njac. rewrite filter_app, app_length. reflexivity. Qed.
  Lemma newton_log_counts refresh (v0 : visit T) V :
    count_nfun (newton_log refresh v0 V) = S (length V) /\ count_njac (newton_log refresh v0 V) = if refresh then S (length V) else 1.
  Proof.
    unfold newton_log. induction V as [|v V IH] using rev_ind; [destruct refresh; split; reflexivity|].
    destruct IH as [I1 I2]. rewrite flat_map_app, app_assoc, count_nfun_app, count_njac_app, I1, I2, app_length.
    destruct refresh; simpl; split; unfold count_nfun, count_njac; simpl; lia.
  Qed.
  Lemma newton_calls x opts stats quiet s l s' l' x' st pr :
    newton_iterate (nlogged F) x opts stats quiet (s, l) = ((s', l'), Ok (x', st, pr)) ->
    exists c, l' = l ++ c /\ Z.of_nat (count_nfun c) = (st_iters st + 1)%Z /\
      Z.of_nat (count_njac c) = (if (o_refresh_jac opts >? 0)%Z then st_iters st + 1 else 1)%Z.
  Proof.
    intros Hr. apply newton_status in Hr. destruct Hr as (v0 & V & _ & Hl & _ & Hit & _). eexists. split; [exact Hl|].
    destruct (newton_log_counts (o_refresh_jac opts >? 0)%Z v0 V) as [-> ->]. rewrite Hit. split; [lia|]. destruct (_ >? _)%Z; lia.
  Qed.
  Lemma broyden_calls x opts stats quiet s l s' l' x' st pr :
    broyden_iterate (nlogged F) x opts stats quiet (s, l) = ((s', l'), Ok (x', st, pr)) ->
    exists c, l' = l ++ c /\ Z.of_nat (count_nfun c) = st_iters st /\ count_njac c = 0.
  Proof.
    intros Hr. apply broyden_run in Hr. destruct Hr as (v0 & V & _ & _ & _ & _ & Hl & _ & _ & Hst & _). eexists. split; [exact Hl|].
    rewrite Hst. cbn [st_iters]. unfold broyden_log, count_nfun, count_njac.
    assert (H : forall W : list (visit T), length (filter (fun c => match c with NFun _ _ => true | NJac _ _ => false end) (map (fun v => NFun (v_x v) (v_r v)) W)) = length W /\
      length (filter (fun c => match c with NFun _ _ => false | NJac _ _ => true end) (map (fun v => NFun (v_x v) (v_r v)) W)) = 0).
    { induction W as [|w W [I1 I2]]; simpl; auto. }
    destruct (H (v0 :: V)) as [-> ->]. split; [simpl length; lia|reflexivity].
  Qed.
  (** only the sign of refresh_jac matters, time_internals not at all *)
  Lemma options_equivalent x opts opts' stats quiet s :
    o_dx_delta opts' = o_dx_delta opts -> o_maxit opts' = o_maxit opts -> o_max_step opts' = o_max_step opts ->
    o_precondition opts' = o_precondition opts -> o_limit_step opts' = o_limit_step opts ->
    (o_refresh_jac opts' > 0 <-> o_refresh_jac opts > 0)%Z ->
    newton_iterate F x opts' stats quiet s = newton_iterate F x opts stats quiet s.
  Proof.
    intros H1 H2 H3 H4 H5 H6. rewrite !dispatch. unfold newton_iterate_impl. rewrite H4, H5.
    replace (o_refresh_jac opts' >? 0)%Z with (o_refresh_jac opts >? 0)%Z.
    2:{ destruct (Z.gtb_spec (o_refresh_jac opts) 0), (Z.gtb_spec (o_refresh_jac opts') 0); try reflexivity; exfalso; lia. }
    unfold newton_impl, newton_body, max_step2_of. rewrite H1, H2, H3. reflexivity.
  Qed.
  Lemma broyden_status x opts stats quiet s s' x' st pr :
    broyden_iterate F x opts stats quiet s = (s', Ok (x', st, pr)) ->
    st_conv st = SUCCESS /\ (1 <= st_iters st <= Z.max 1 (o_maxit opts))%Z /\
    ((o_maxit opts <= 1)%Z -> x' = x /\ st_iters st = 1%Z).
  Proof.
    intros Hr. apply (broyden_logged F _ _ _ _ _ _ _ []) in Hr. destruct Hr as [l' Hr]. apply broyden_run in Hr.
    destruct Hr as (v0 & V & Hx & _ & _ & _ & _ & _ & Hx' & -> & Hlen & _). cbn [st_conv st_iters]. split; [reflexivity|]. split; [lia|].
    intros Hm. assert (V = []) as -> by (destruct V; [reflexivity|simpl in Hlen; lia]). simpl in * . rewrite Hx', Hx. auto.
  Qed.
  (** ... whatever the system does at the initial guess *)
  Lemma broyden_maxit_one x opts stats quiet s s' r : (o_maxit opts <= 1)%Z -> n_fun F x s = (s', Ok r) ->
    broyden_iterate F x opts stats quiet s = (s', Ok (x, Status SUCCESS (ssqrt (la_dot r r)) 1 (st_eta_final stats), 0)).
  Proof.
    intros Hm Hf. unfold broyden_iterate. rewrite (bind_run _ _ _ _ _ Hf). rewrite dot_self.
    rewrite (bind_run _ _ _ _ _ (eq_refl : lift (Ok _) s' = (s', Ok _))).
    assert (Hc : (1 <? o_maxit opts)%Z = false) by (apply Z.ltb_ge; lia).
    assert (Hw : forall fuel, while (fun s0 => negb (bs_term s0) && (bs_iters s0 <? o_maxit opts)%Z) (broyden_body F opts quiet) fuel
       (BState x r (la_dot r r) (eye (length x)) false SUCCESS 1 0) s' = (s', Ok (inl (BState x r (la_dot r r) (eye (length x)) false SUCCESS 1 0)))).
    { intros [|fuel]; cbn [while]; cbn [bs_term bs_iters negb andb]; rewrite Hc; reflexivity. }
    rewrite (bind_run _ _ _ _ _ (Hw _)). reflexivity.
  Qed.
End Counts.
