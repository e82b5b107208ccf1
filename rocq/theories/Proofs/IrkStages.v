(** The stage solver over the reals. *)
From Coq Require Import Reals Lra.
From Verif Require Import Model.Base Model.Scalar Model.LinAlg Model.Newton Model.Enums Model.Options Model.Coeffs Model.Irk.
From Verif Require Import Spec.Sums Spec.Trees Spec.Observe Spec.ErkSpec Spec.NewtonSpec Spec.IrkSpec.
From Verif Require Import Proofs.LoopProofs Proofs.SumsProofs Proofs.ErkProofs Proofs.ErkReal Proofs.NewtonProofs Proofs.RVec Proofs.IrkProofs Proofs.IrkReal.
Local Open Scope R_scope.

Lemma last_in {A} (l : list A) d : In (last l d) (d :: l).
Proof.
  assert (G : forall (q : list A) u, q <> [] -> In (last q u) q).
  { induction q as [|v q IH]; [congruence|]. intros u _. destruct q; [left; reflexivity|]. right. apply IH. discriminate. }
  destruct l; [left; reflexivity|]. right. apply G. discriminate.
Qed.

Section Stages.
  Context {LA : LinAlg R} {HP : ExactProducts LA} {HX : ExactSolve LA} {HLU : ExactLU LA} {HE : Env R} {St : Type}.
  Variables (F : functor R St) (y : list R) (t dt : R) (sc : solver_coeffs R).
  Let n := length y.
  Let s := length (sc_b sc).
  Hypothesis HAr : nrows (sc_A sc) = s.
  Hypothesis HAc : ncols (sc_A sc) = s.
  Hypothesis HAw : mat_wf (sc_A sc).
  Hypothesis Hc : length (sc_c sc) = s.
  Hypothesis Hs : (0 < s)%nat.
  Variable f : R -> list R -> list R.
  Hypothesis Hf : computes F f.
  Hypothesis HJ : jac_matrices F.
  Let a := mentry (sc_A sc).
  Let c := ventry (sc_c sc).

  Lemma matrix_dims J M : (0 < n)%nat -> stage_matrix y dt sc J = Ok M -> mat_wf J -> is_stage_matrix n s a dt J M /\ mat_wf M.
  Proof.
    intros Hn Hm Hw.
    assert (Hd : nrows J = n /\ ncols J = n).
    { unfold stage_matrix, msub in Hm. destruct (msame _ _) eqn:Em; [|discriminate]. unfold msame in Em. apply andb_true_iff in Em. rewrite !Nat.eqb_eq in Em. destruct Em as [E1 E2].
      unfold eye in E1, E2. rewrite mtab_nrows in E1. rewrite mtab_ncols in E2. cbn [mscale nrows] in E1. unfold ncols at 1 in E2. unfold mscale in E2. cbn [mcols] in E2. rewrite map_length in E2. fold (ncols (kron (sc_A sc) J)) in E2.
      rewrite kron_nrows, HAr in E1. rewrite kron_ncols, HAc in E2. fold s n in E1, E2. split.
      - apply (Nat.mul_cancel_l _ _ s); [lia|]. congruence.
      - apply (Nat.mul_cancel_l _ _ s); [lia|]. congruence. }
    destruct Hd. apply stage_matrix_R; assumption.
  Qed.

  Lemma move_newton adaptive plu v v' : (0 < n)%nat -> is_residual F y t dt sc (v_x v) (v_r v) -> stage_move F y t dt sc adaptive plu v v' ->
    jac_answers F t y (v_J v) /\ stage_newton n s a c f t dt y (v_J v) adaptive (v_x v) (v_x v') (v_d v').
  Proof.
    intros Hn HR (JY & [J1 J2 J3 _] & Hi & Hm). split; [exact J1|].
    destruct (residual_defect F y t dt sc HAr HAc HAw f Hf _ _ HR) as (LR & LY & ER & _). fold n s a c in LR, LY, ER.
    apply vadd_R in Hm. destruct Hm as (Ld & LY' & EY'). rewrite vscale_length in Ld.
    destruct (matrix_dims _ _ Hn J2 (HJ _ _ _ J1)) as (HM & HMw).
    split; [exact LY|]. split; [congruence|]. split; [congruence|]. split.
    { intros k. rewrite EY', ventry_vscale. unfold stage_step. destruct adaptive; [|reflexivity]. rewrite (residual_norm F y t dt sc HAr HAc HAw f Hf _ _ HR). reflexivity. }
    exists JY. split; [exact HM|]. split; [exact HMw|]. intros Hinv i p Hip Hp.
    assert (Hsol : is_solution JY (v_d v') (vopp (v_r v))).
    { destruct HM as (M1 & M2 & _). destruct plu.
      - destruct ndebug eqn:End.
        + exfalso. unfold stage_increment, factors in Hi. rewrite End in Hi. cbn [negb andb rbind] in Hi. unfold mv in Hi. cbn [ncols mat_empty mcols length] in Hi.
          rewrite LR in Hi. destruct (s * n)%nat eqn:E; [nia|]. discriminate.
        + unfold factors in Hi. rewrite End in Hi. cbn [andb negb] in Hi. apply plu_solve in Hi; [exact Hi|exact Hinv|lia].
      - cbn [stage_increment] in Hi. destruct (factors false JY) as [[? ?] ?]. unfold solve in Hi. destruct (nrows JY =? length (v_r v))%nat; [|discriminate].
        destruct (exact_solve JY (v_r v) Hinv ltac:(lia)) as (x & Ex & Sx). rewrite Ex in Hi. cbn [rbind] in Hi. injection Hi as <-. apply is_solution_opp, Sx. }
    destruct Hsol as (_ & _ & E). destruct HM as (M1 & M2 & _). rewrite M1, M2 in E. specialize (E (n * i + p)%nat ltac:(nia)). rewrite E, ventry_vopp, ER by assumption. reflexivity.
  Qed.

  Variables (adaptive plu : bool) (maxit refresh : Z) (xtol Rtol : R).
  Lemma solve_R w w' f0 j0 sr : newton_solve_stages F y t dt sc adaptive plu maxit refresh xtol Rtol f0 j0 w = (w', Ok sr) ->
    let Y := sr_Y sr in
    (0 < n)%nat /\ length Y = (s * n)%nat /\ (forall j, (j < s)%nat -> length (stage_slope n c f t dt y Y j) = n) /\
    sr_res sr = defect_norm2 n s a c f t dt y Y /\
    jac_answers F t y (sr_J sr) /\ nrows (sr_J sr) = n /\ ncols (sr_J sr) = n /\
    ((sr_status sr = Newton.SUCCESS /\ (1 <= sr_iters sr < maxit)%Z /\ sr_fun sr = (f0 + s * (1 + Z.to_nat (sr_iters sr)))%nat /\
      exists Y0 J d, newton_reaches n s a c f t dt y (jac_answers F t y) adaptive Y0 /\ jac_answers F t y J /\ stage_newton n s a c f t dt y J adaptive Y0 Y d /\
        (defect_norm2 n s a c f t dt y Y < Rtol * Rtol \/ Rsum (length d) (fun i => ventry d i * ventry d i) < xtol * xtol)) \/
     (sr_status sr = MAXIT_EXCEEDED /\ sr_iters sr = Z.max 1 maxit /\ sr_fun sr = (f0 + s * Z.to_nat (Z.max 1 maxit))%nat /\
      ((1 < maxit)%Z -> Rtol * Rtol <= defect_norm2 n s a c f t dt y Y))).
  Proof.
    intros Hr. cbv zeta.
    destruct (newton_solve_stages_inv F y t dt sc false (fun _ => []) ltac:(discriminate) ltac:(discriminate) adaptive plu maxit refresh xtol Rtol HAc Hc Hs w w' f0 j0 sr Hr) as (v0 & V & D).
    destruct D as [[T1 T2 T3 T4] Hn DY DJ Dr [JY Dj] Dst Df _]. fold n in T1, Hn, Df. fold s in T1, Df. split; [exact Hn|].
    assert (Hres : forall v, In v (v0 :: V) -> is_residual F y t dt sc (v_x v) (v_r v)) by (intros v Hv; rewrite Forall_forall in T2; apply T2, Hv).
    assert (Hlast : In (last V v0) (v0 :: V)) by (apply last_in).
    pose proof (Hres _ Hlast) as HRl. destruct (residual_defect F y t dt sc HAr HAc HAw f Hf _ _ HRl) as (LR & LY & ER & Lsl). fold n s a c in LR, LY, ER, Lsl.
    pose proof (residual_norm F y t dt sc HAr HAc HAw f Hf _ _ HRl) as Nl. fold n s a c in Nl.
    rewrite DY. split; [exact LY|]. split; [exact Lsl|]. split; [rewrite Dr; exact Nl|].
    assert (Hmv : forall k v v', nth_error (v0 :: V) k = Some v -> nth_error (v0 :: V) (S k) = Some v' ->
              jac_answers F t y (v_J v) /\ stage_newton n s a c f t dt y (v_J v) adaptive (v_x v) (v_x v') (v_d v')).
    { intros k v v' H1 H2. apply (move_newton adaptive plu); [exact Hn|apply Hres, (nth_error_In _ _ H1)|apply (T3 k); assumption]. }
    assert (G : forall k v, nth_error (v0 :: V) k = Some v -> newton_reaches n s a c f t dt y (jac_answers F t y) adaptive (v_x v)).
      { induction k as [|k IH]; intros v Hv.
        - injection Hv as <-. rewrite T1. apply reach_zero.
        - assert (exists u, nth_error (v0 :: V) k = Some u) as [u Hu].
          { destruct (nth_error (v0 :: V) k) eqn:E; [eauto|]. apply nth_error_None in E. assert (S k < length (v0 :: V))%nat by (apply nth_error_Some; congruence). lia. }
          destruct (Hmv k u v Hu Hv) as [K1 K2]. eapply reach_next; [exact (IH u Hu)|exact K1|exact K2]. }
    split; [exact (jo_ans _ _ _ _ _ _ _ _ _ Dj)|].
    assert (Hdj : nrows (sr_J sr) = n /\ ncols (sr_J sr) = n).
    { pose proof (jo_mat _ _ _ _ _ _ _ _ _ Dj) as Hm. unfold stage_matrix, msub in Hm. destruct (msame _ _) eqn:Em; [|discriminate]. unfold msame in Em. apply andb_true_iff in Em. rewrite !Nat.eqb_eq in Em. destruct Em as [E1 E2].
      unfold eye in E1, E2. rewrite mtab_nrows in E1. rewrite mtab_ncols in E2. cbn [mscale nrows] in E1. unfold ncols at 1 in E2. unfold mscale in E2. cbn [mcols] in E2. rewrite map_length in E2. fold (ncols (kron (sc_A sc) (sr_J sr))) in E2.
      rewrite kron_nrows, HAr in E1. rewrite kron_ncols, HAc in E2. fold s n in E1, E2. split.
      - apply (Nat.mul_cancel_l _ _ s); [lia|]. congruence.
      - apply (Nat.mul_cancel_l _ _ s); [lia|]. congruence. }
    split; [apply Hdj|]. split; [apply Hdj|].
    destruct Dst as [(D1 & D2 & D3 & D4 & D5)|(D1 & D2 & D3 & D4)].
    - left. split; [exact D1|]. split; [destruct V; [contradiction|]; cbn [length] in D3; lia|]. split; [rewrite Df, D3, Nat2Z.id; reflexivity|].
      destruct (exists_last D2) as (V' & v' & EV).
      assert (El : last V v0 = v') by (rewrite EV; apply last_last). rewrite El in * .
      assert (exists u, nth_error (v0 :: V) (length V') = Some u) as [u Hu].
      { destruct (nth_error (v0 :: V) (length V')) eqn:E; [eauto|]. apply nth_error_None in E. rewrite EV in E. simpl in E. rewrite app_length in E. simpl in E. lia. }
      assert (Hv' : nth_error (v0 :: V) (S (length V')) = Some v') by (cbn [nth_error]; rewrite EV, nth_error_app2, Nat.sub_diag by lia; reflexivity).
      destruct (Hmv _ _ _ Hu Hv') as [K1 K2]. exists (v_x u), (v_J u), (v_d v'). split; [exact (G _ _ Hu)|]. split; [exact K1|]. split; [exact K2|].
      unfold stage_converged in D5. apply orb_true_iff in D5. rewrite Nl in D5. destruct D5 as [D5|D5]; apply Rltb_true in D5; [left; exact D5|right].
      rewrite exact_dot in D5 by reflexivity. exact D5.
    - right. split; [exact D1|]. split; [exact D2|]. split; [rewrite Df; f_equal; f_equal; lia|]. intros Hm.
      assert (HV : V <> []) by (intros ->; cbn in D3; lia). rewrite Forall_forall in D4. destruct (exists_last HV) as (V' & v' & EV).
      assert (El : last V v0 = v') by (rewrite EV; apply last_last). rewrite El in * .
      specialize (D4 v' ltac:(rewrite EV; apply in_or_app; right; left; reflexivity)). unfold stage_converged in D4. rewrite Nl in D4. apply orb_false_iff in D4. destruct D4 as [D4 _].
      apply Rltb_false in D4. exact D4.
  Qed.
End Stages.
