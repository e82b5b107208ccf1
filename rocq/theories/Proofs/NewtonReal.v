(** newton.hpp in exact arithmetic. *)
From Coq Require Import Reals Lra.
From Verif Require Import Model.Base Model.Scalar Model.LinAlg Model.Newton Spec.Sums Spec.ErkSpec Spec.NewtonSpec
  Proofs.LoopProofs Proofs.SumsProofs Proofs.RVec Proofs.NewtonProofs Proofs.NewtonTotal.
Local Open Scope R_scope.

Lemma Rltb_t a b : Rltb a b = true <-> a < b.
Proof. unfold Rltb. destruct (Rlt_dec a b); split; auto; discriminate. Qed.
Lemma Rltb_f a b : Rltb a b = false <-> b <= a.
Proof. unfold Rltb. destruct (Rlt_dec a b); split; intros; try lra; try discriminate; reflexivity. Qed.

Section NewtonR.
  Context {LA : LinAlg R} {HP : ExactProducts LA} {E : Env R}.

  Lemma limit_R (opts : options R) lam d d' : 0 < lam -> limit_direction (max_step2_of opts) lam d = Ok d' ->
    d' = map (fun a => (if Rlt_dec 0 (o_max_step opts)
                        then if Rlt_dec (o_max_step opts) (lam * norm2 d) then o_max_step opts / (lam * norm2 d) else 1 else 1) * a) d.
  Proof.
    intros Hlam. unfold limit_direction, max_step2_of. simpl. set (m := o_max_step opts).
    destruct (Rlt_dec 0 m) as [Hm|Hm].
    - rewrite !(proj2 (Rltb_t 0 m) Hm). rewrite (proj2 (Rltb_t 0 (m * m))) by nra. rewrite dot_self. cbn [rbind]. rewrite dot_norm2. cbn [sltb smul sdiv ssqrt RScalar].
      set (N := norm2 d). assert (HN : 0 <= N) by apply norm2_nonneg.
      destruct (Rlt_dec m (lam * N)) as [Hl|Hl].
      + rewrite (proj2 (Rltb_t (m * m) (lam * lam * (N * N)))) by nra. intros [= <-].
        assert (HN' : 0 < N) by (destruct HN as [HN|HN]; [exact HN|rewrite <- HN in Hl; lra]).
        unfold vscale. apply map_ext. intros a. cbn [smul RScalar]. f_equal.
        replace (m * m / (N * N)) with ((m / N) * (m / N)) by (field; lra).
        rewrite sqrt_square by (apply Rlt_le, Rdiv_lt_0_compat; lra). field. split; lra.
      + rewrite (proj2 (Rltb_f (m * m) (lam * lam * (N * N)))) by (assert (0 <= lam * N) by nra; replace (lam * lam * (N * N)) with ((lam * N) * (lam * N)) by ring; nra). intros [= <-].
        rewrite <- map_id at 1. apply map_ext. intros; ring.
    - rewrite !(proj2 (Rltb_f 0 m)) by lra. rewrite (proj2 (Rltb_f 0 (-1))) by lra. intros [= <-]. rewrite <- map_id at 1. apply map_ext. intros; ring.
  Qed.

  Context {HX : ExactSolve LA}.

  Lemma solve_R A b x : invertible A -> solve A b = Ok x -> is_solution A x b.
  Proof.
    intros HA. unfold solve. destruct (nrows A =? length b)%nat eqn:El; [|discriminate]. apply Nat.eqb_eq in El.
    destruct (exact_solve A b HA (eq_sym El)) as (f & Hf & Hs). rewrite Hf. intros [= <-]. exact Hs.
  Qed.
  Lemma solve_total_R A b : invertible A -> length b = nrows A -> exists x, solve A b = Ok x.
  Proof.
    intros HA Hb. unfold solve. destruct (exact_solve A b HA Hb) as (f & Hf & Hs). rewrite Hb, Nat.eqb_refl, Hf. eauto.
  Qed.

  (** the preconditioned matrix *)
  Definition pmat (N : nat) (J : mat R) : mat R := mtab N N (fun i j => if (i =? j)%nat then pre_diag J i else 0).
  Lemma pre_diag_nz J i : pre_diag J i <> 0.
  Proof.
    unfold pre_diag. destruct (mget J i i) as [a|e]; [|simpl; lra]. simpl. unfold Reqb. destruct (Req_EM_T a (IZR 0)) as [H|H]; simpl; [lra|].
    unfold Rdiv. rewrite Rmult_1_l. apply Rinv_neq_0_compat. exact H.
  Qed.
  Lemma pmat_mm N J PJ : mm (pmat N J) J = Ok PJ -> nrows J = N /\ nrows PJ = N /\ ncols PJ = ncols J /\
    forall i j, (i < N)%nat -> (j < ncols J)%nat -> mentry PJ i j = pre_diag J i * mentry J i j.
  Proof.
    intros H. apply mm_R in H. destruct H as (H1 & H2 & H3 & _ & H4). unfold pmat in * . rewrite mtab_ncols in * . rewrite mtab_nrows in * .
    repeat split; auto. intros i j Hi Hj. rewrite (H4 i j Hi Hj).
    rewrite (Rsum_single N i); [|exact Hi|].
    - rewrite mentry_vt by assumption. rewrite Nat.eqb_refl. reflexivity.
    - intros k Hk Hne. rewrite mentry_vt by assumption. destruct (Nat.eqb_spec i k); [congruence|ring].
  Qed.
  Lemma pmat_mv N J r v : mv (pmat N J) r = Ok v -> length r = N /\ length v = N /\ forall i, (i < N)%nat -> ventry v i = pre_diag J i * ventry r i.
  Proof.
    intros H. apply mv_R in H. destruct H as (H1 & H2 & H3). unfold pmat in * . rewrite mtab_ncols in * . rewrite mtab_nrows in * .
    repeat split; auto. intros i Hi. rewrite (H3 i Hi). rewrite (Rsum_single N i); [|exact Hi|].
    - rewrite mentry_vt by assumption. rewrite Nat.eqb_refl. reflexivity.
    - intros k Hk Hne. rewrite mentry_vt by assumption. destruct (Nat.eqb_spec i k); [congruence|ring].
  Qed.
  Lemma scaled_invertible J PJ (p : nat -> R) : (forall i, p i <> 0) -> nrows PJ = nrows J -> ncols PJ = ncols J ->
    (forall i j, (i < nrows J)%nat -> (j < ncols J)%nat -> mentry PJ i j = p i * mentry J i j) -> invertible J -> invertible PJ.
  Proof.
    intros Hp Hr Hc He [B (Hsq & HBr & HBc & HB)].
    exists (mtab (nrows J) (nrows J) (fun i k => mentry B i k / p k)). split; [congruence|].
    rewrite mtab_nrows, mtab_ncols. split; [congruence|]. split; [congruence|]. rewrite Hr. intros i j Hi Hj. split.
    - rewrite (Rsum_ext _ _ (fun k => mentry J i k * mentry B k j * (p i / p j))).
      2:{ intros k Hk. rewrite He by lia. rewrite mentry_vt by lia. field. apply Hp. }
      rewrite Rsum_scal_r. destruct (HB i j Hi Hj) as [-> _]. unfold delta. destruct (Nat.eq_dec i j) as [->|]; [field; apply Hp|ring].
    - rewrite (Rsum_ext _ _ (fun k => mentry B i k * mentry J k j)).
      2:{ intros k Hk. rewrite He by lia. rewrite mentry_vt by lia. field. apply Hp. }
      apply (HB i j Hi Hj).
  Qed.

  (** the [try] block computes the Newton direction *)
  Lemma direction_R rj pc N J LUP r d LUP' : store_LU rj = false -> (pc = true -> junk = 0 /\ P_shape N (snd LUP)) -> invertible J ->
    newton_direction rj pc N J LUP r = Ok (d, LUP') -> is_solution J d (vopp r).
  Proof.
    intros Hst Hpc HJ. unfold newton_direction. destruct LUP as [[L U] P]. destruct pc.
    - destruct (Hpc eq_refl) as [Hj HP']. intros Hd. apply rbind_ok in Hd. destruct Hd as (P1 & H1 & Hd).
      apply precondition_shape in H1; [|exact HP']. destruct H1 as [-> _]. rewrite Hj in Hd. fold (pmat N J) in Hd.
      apply rbind_ok in Hd. destruct Hd as (PJ & H1 & Hd). apply rbind_ok in Hd. destruct Hd as (Pr & H2 & Hd).
      apply rbind_ok in Hd. destruct Hd as (x & H3 & Hd). injection Hd as <- <-.
      apply pmat_mm in H1. destruct H1 as (HN & HPr & HPc & HPe). apply pmat_mv in H2. destruct H2 as (Hlr & HlPr & HPre).
      change (vneg x) with (vopp x). apply is_solution_opp. apply solve_R in H3.
      2:{ apply (scaled_invertible J PJ (pre_diag J)); auto; [apply pre_diag_nz|congruence|]. rewrite HN. exact HPe. }
      destruct H3 as (S1 & S2 & S3). split; [congruence|]. split; [congruence|].
      intros i Hi. rewrite HN in Hi. rewrite HPr, HPc in S3. specialize (S3 i Hi). rewrite HPre in S3 by exact Hi.
      rewrite (Rsum_ext _ _ (fun j => pre_diag J i * (mentry J i j * ventry x j))) in S3 by (intros; rewrite HPe by assumption; ring).
      rewrite Rsum_scal in S3. apply Rmult_eq_reg_l in S3; [exact S3|apply pre_diag_nz].
    - rewrite Hst. simpl negb. cbn match. intros Hd. apply rbind_ok in Hd. destruct Hd as (x & H1 & Hd). injection Hd as <- <-.
      change (vneg x) with (vopp x). apply is_solution_opp, solve_R; assumption.
  Qed.
  (** ... and does not throw on an invertible matrix *)
  Lemma direction_ok_R rj pc N J LUP r : store_LU rj = false -> (pc = true -> junk = 0 /\ P_shape N (snd LUP) /\ mat_wf J) -> invertible J -> nrows J = N -> length r = N ->
    exists d LUP', newton_direction rj pc N J LUP r = Ok (d, LUP').
  Proof.
    intros Hst Hpc HJ HN Hr. unfold newton_direction. destruct LUP as [[L U] P]. destruct pc.
    - destruct (Hpc eq_refl) as (Hj & HP' & Hwf).
      assert (Hfold : exists P', foldR (fun i P => rbind (mget J i i) (fun Jii => Ok (mset P i i (if negb (Jii ==?. sZ 0)%sc then sZ 1 /. Jii else sZ 1)%sc))) (seq 0 N) P = Ok P').
      { destruct (foldR_seq_total (fun i P => rbind (mget J i i) (fun Jii => Ok (mset P i i (if negb (Jii ==?. sZ 0)%sc then sZ 1 /. Jii else sZ 1)%sc))) (fun _ _ => True) 0 N P) as (P' & E' & _); [|exact I|eauto].
        intros i a Hi _. destruct (mget_ok J i i Hwf) as [x E']; [lia|destruct HJ as [B (H1 & _)]; lia|]. rewrite E'. simpl. eauto. }
      destruct Hfold as [P' E']. rewrite E'. cbn [rbind].
      apply precondition_shape in E'; [|exact HP']. destruct E' as [-> _]. rewrite Hj. fold (pmat N J).
      destruct (mm_total (pmat N J) J) as [PJ E1]; [unfold pmat; rewrite mtab_ncols; auto|]. rewrite E1. cbn [rbind].
      destruct (mv_total (pmat N J) r) as [Pr E2]; [unfold pmat; rewrite mtab_ncols; auto|]. rewrite E2. cbn [rbind].
      apply pmat_mm in E1. destruct E1 as (_ & HPr & HPc & HPe). apply pmat_mv in E2. destruct E2 as (_ & HlPr & HPre).
      destruct (solve_total_R PJ Pr) as [d E3].
      { apply (scaled_invertible J PJ (pre_diag J)); auto; [apply pre_diag_nz|congruence|]. rewrite HN. exact HPe. }
      { congruence. }
      rewrite E3. cbn [rbind]. eauto.
    - rewrite Hst. simpl negb. cbn match. destruct (solve_total_R J r HJ ltac:(congruence)) as [d E1]. rewrite E1. cbn [rbind]. eauto.
  Qed.

  (** a step along e, damped and limited *)
  Definition limited_step (opts : options R) (v v' : visit R) (e : list R) : Prop :=
    let lam := if o_limit_step opts then 1 / (1 + norm2 (v_r v) * norm2 (v_r v)) else 1 in
    let mu := if Rlt_dec 0 (o_max_step opts)
              then if Rlt_dec (o_max_step opts) (lam * norm2 e) then o_max_step opts / (lam * norm2 e) else 1
              else 1 in
    length (v_x v') = length (v_x v) /\
    v_d v' = map (fun a => mu * a) e /\
    forall i, (i < length (v_x v))%nat -> ventry (v_x v') i = ventry (v_x v) i + lam * mu * ventry e i.

  Section Runs.
    Context {St : Type} (F : nfunctor R St) (x : list R) (opts : options R).
    Lemma lambda_R limit v : newton_lambda limit v = if limit then 1 / (1 + norm2 (v_r v) * norm2 (v_r v)) else 1.
    Proof. unfold newton_lambda. destruct limit; [|reflexivity]. rewrite dot_norm2. reflexivity. Qed.
    Lemma lambda_pos limit v : 0 < newton_lambda limit v.
    Proof.
      rewrite lambda_R. destruct limit; [|lra]. apply Rdiv_lt_0_compat; [lra|]. pose proof (Rle_0_sqr (norm2 (v_r v))) as H. unfold Rsqr in H. lra.
    Qed.

    Hypothesis Hjunk : o_precondition opts = true -> junk = 0.
    Lemma moves_limited v v' : moves (flag opts) (o_precondition opts) (o_limit_step opts) x opts v v' -> exists e, limited_step opts v v' e.
    Proof.
      intros [[Hmv _] (LUP & LUP' & d & Hsh & Hd & Hl)]. unfold limited_step. rewrite <- lambda_R.
      set (lam := newton_lambda (o_limit_step opts) v) in * . exists d. apply limit_R in Hl; [|apply lambda_pos].
      set (mu := if Rlt_dec 0 (o_max_step opts) then _ else _) in * . cbv zeta.
      apply vadd_R in Hmv. destruct Hmv as (L1 & L2 & L3). split; [exact L2|]. split; [exact Hl|].
      intros i Hi. rewrite L3, ventry_vscale, Hl. rewrite (ventry_map (fun a => mu * a)) by ring. ring.
    Qed.

    Lemma moves_step v v' : moves (flag opts) (o_precondition opts) (o_limit_step opts) x opts v v' -> invertible (v_J v) -> newton_step opts v v'.
    Proof.
      intros [[Hmv _] (LUP & LUP' & d & Hsh & Hd & Hl)] HJ. unfold newton_step. rewrite <- lambda_R.
      set (lam := newton_lambda (o_limit_step opts) v) in * .
      assert (Hsol : is_solution (v_J v) d (vopp (v_r v))).
      { eapply direction_R; [apply (flag_store opts)| |exact HJ|exact Hd]. intros Hp. split; [apply Hjunk, Hp|apply Hsh, (flag_store opts)]. }
      exists d. split; [exact Hsol|]. apply limit_R in Hl; [|apply lambda_pos].
      set (mu := if Rlt_dec 0 (o_max_step opts) then _ else _) in * . cbv zeta.
      apply vadd_R in Hmv. destruct Hmv as (L1 & L2 & L3). split; [exact L2|]. split; [exact Hl|].
      intros i Hi. rewrite L3, ventry_vscale, Hl. rewrite (ventry_map (fun a => mu * a)) by ring. ring.
    Qed.
  End Runs.

  (** ** The limit on the step *)
  Lemma step_length opts v v' e : limited_step opts v v' e -> 0 < o_max_step opts -> norm2 (vminus (v_x v') (v_x v)) <= o_max_step opts.
  Proof.
    unfold limited_step. intros (Hlen & Hd & Hx) Hm.
    set (lam := if o_limit_step opts then 1 / (1 + norm2 (v_r v) * norm2 (v_r v)) else 1) in * .
    assert (Hlam : 0 < lam).
    { unfold lam. destruct (o_limit_step opts); [|lra]. apply Rdiv_lt_0_compat; [lra|]. pose proof (Rle_0_sqr (norm2 (v_r v))) as H. unfold Rsqr in H. lra. }
    set (mu := if Rlt_dec 0 (o_max_step opts) then _ else _) in * .
    assert (Hle : forall k, 0 <= k -> (forall i, (i < length (v_x v))%nat -> ventry (v_x v') i = ventry (v_x v) i + k * ventry e i) ->
                    norm2 (vminus (v_x v') (v_x v)) <= k * norm2 e).
    { intros k Hk Hxk. unfold norm2 at 2. rewrite <- (sqrt_square k Hk) at 1. rewrite <- sqrt_mult_alt by nra.
      unfold norm2. apply sqrt_le_1_alt. unfold vminus. rewrite vtab_length.
      rewrite <- Rsum_scal. rewrite Hlen.
      assert (Hpre : forall n, (n <= length (v_x v))%nat ->
        Rsum n (fun i => ventry (vtab (length (v_x v)) (fun i0 => ventry (v_x v') i0 - ventry (v_x v) i0)) i *
                          ventry (vtab (length (v_x v)) (fun i0 => ventry (v_x v') i0 - ventry (v_x v) i0)) i) =
        Rsum n (fun i => k * k * (ventry e i * ventry e i))).
      { intros n Hn. apply Rsum_ext. intros i Hi. rewrite ventry_vt by lia. rewrite Hxk by lia. ring. }
      rewrite Hpre by lia.
      destruct (Nat.le_ge_cases (length (v_x v)) (length e)) as [Hl|Hl].
      - replace (length e) with (length (v_x v) + (length e - length (v_x v)))%nat by lia. rewrite Rsum_add.
        match goal with |- _ <= _ + ?z => assert (0 <= z); [|lra] end. apply Rsum_nonneg. intros. nra.
      - replace (length (v_x v)) with (length e + (length (v_x v) - length e))%nat by lia. rewrite Rsum_add.
        match goal with |- _ + ?z <= _ => assert (z = 0) as ->; [|lra] end. apply Rsum_0. intros i Hi. rewrite ventry_out by lia. ring. }
    assert (Hmu : 0 <= mu /\ lam * mu * norm2 e <= o_max_step opts).
    { unfold mu. destruct (Rlt_dec 0 (o_max_step opts)); [|contradiction]. pose proof (norm2_nonneg e).
      destruct (Rlt_dec (o_max_step opts) (lam * norm2 e)) as [H1|H1].
      - assert (0 < lam * norm2 e) by lra. split; [apply Rlt_le, Rdiv_lt_0_compat; lra|].
        assert (norm2 e <> 0) by (intros E0; rewrite E0 in H1; lra). right. field. split; lra.
      - split; lra. }
    destruct Hmu as [Hmu0 Hmu1]. eapply Rle_trans; [apply (Hle (lam * mu))|exact Hmu1]; [nra|exact Hx].
  Qed.
End NewtonR.
