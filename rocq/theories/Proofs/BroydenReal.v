(** Broyden's method in exact arithmetic. *)
From Coq Require Import Reals Lra.
From Verif Require Import Model.Base Model.Scalar Model.LinAlg Model.Newton Spec.Sums Spec.ErkSpec Spec.NewtonSpec
  Proofs.LoopProofs Proofs.SumsProofs Proofs.RVec Proofs.NewtonProofs Proofs.NewtonTotal Proofs.NewtonReal Proofs.NewtonLog.
Local Open Scope R_scope.

Lemma madd_R A B C : mat_wf A -> mat_wf B -> madd A B = Ok C ->
  nrows B = nrows A /\ ncols B = ncols A /\ nrows C = nrows A /\ ncols C = ncols A /\ mat_wf C /\
  forall i j, (i < nrows A)%nat -> (j < ncols A)%nat -> mentry C i j = mentry A i j + mentry B i j.
Proof.
  intros HA HB. unfold madd. destruct (msame A B) eqn:Es; [|discriminate]. intros [= <-].
  unfold msame in Es. apply andb_true_iff in Es. destruct Es as [E1 E2]. apply Nat.eqb_eq in E1, E2.
  unfold ncols in * . assert (Hl : length (combine (mcols A) (mcols B)) = length (mcols A)) by (rewrite combine_length, E2; apply Nat.min_id).
  assert (Hn : forall j, (j < length (mcols A))%nat ->
    nth j (mcols (mzip sadd A B)) [] = zipwith sadd (nth j (mcols A) []) (nth j (mcols B) [])).
  { intros j Hj. unfold mzip. cbn [mcols].
    rewrite (nth_indep _ [] ((fun p => zipwith sadd (fst p) (snd p)) ([], []))) by (rewrite map_length, Hl; exact Hj).
    rewrite (map_nth (fun p => zipwith sadd (fst p) (snd p))). rewrite combine_nth by exact E2. reflexivity. }
  split; [auto|]. split; [auto|]. split; [reflexivity|]. split; [unfold mzip; cbn [mcols]; rewrite map_length; exact Hl|].
  split.
  - unfold mat_wf, mzip. cbn [mcols nrows]. apply Forall_forall. intros c Hc. apply in_map_iff in Hc. destruct Hc as ([a b] & <- & Hc). cbn [fst snd].
    unfold mat_wf in HA, HB. rewrite Forall_forall in HA, HB.
    pose proof (in_combine_l _ _ _ _ Hc) as H1. pose proof (in_combine_r _ _ _ _ Hc) as H2.
    rewrite zipwith_length by (rewrite (HA _ H1), (HB _ H2); exact E1). apply HA, H1.
  - intros i j Hi Hj. unfold mentry. rewrite Hn by exact Hj. change (nth i (zipwith sadd ?a ?b) 0) with (ventry (zipwith sadd a b) i).
    rewrite (ventry_zip sadd); [reflexivity| |simpl; ring]. rewrite !wf_col; unfold ncols; auto; lia.
Qed.

Lemma norm2_map k x : 0 <= k -> norm2 (map (Rmult k) x) = k * norm2 x.
Proof.
  intros Hk. unfold norm2. rewrite map_length. transitivity (sqrt (k * k) * sqrt (Rsum (length x) (fun i => ventry x i * ventry x i))); [|rewrite sqrt_square by exact Hk; reflexivity]. rewrite <- sqrt_mult_alt by nra. f_equal.
  rewrite <- Rsum_scal. apply Rsum_ext. intros i Hi. rewrite (ventry_map (Rmult k)) by ring. ring.
Qed.

Section BroydenR.
  Context {LA : LinAlg R} {HP : ExactProducts LA} {E : Env R} (opts : options R).

  Definition bshape (n : nat) (v : visit R) : Prop :=
    nrows (v_J v) = n /\ ncols (v_J v) = n /\ mat_wf (v_J v) /\ length (v_x v) = n.
  Lemma bshape_eye n v : v_J v = eye n -> length (v_x v) = n -> bshape n v.
  Proof. intros HJ H. unfold bshape. rewrite HJ. split; [reflexivity|]. split; [apply mtab_ncols|]. split; [apply mtab_wf|exact H]. Qed.

  Lemma damping_R v : broyden_lambda v = broyden_damping v.
  Proof. unfold broyden_lambda, broyden_damping. rewrite dot_norm2. reflexivity. Qed.
  Lemma damping_pos v : 0 < broyden_damping v.
  Proof.
    unfold broyden_damping. apply Rdiv_lt_0_compat; [lra|]. apply sqrt_lt_R0. pose proof (Rle_0_sqr (norm2 (v_r v))) as H. unfold Rsqr in H. lra.
  Qed.

  (** the step from v to v' *)
  Lemma broyden_step n v v' : bshape n v -> broyden_move opts v v' ->
    bshape n v' /\ length (v_r v) = n /\ length (v_r v') = n /\
    let p := broyden_full_step v in
    let mu := if Rlt_dec 0 (o_max_step opts)
              then if Rlt_dec (o_max_step opts) (broyden_damping v * norm2 p) then o_max_step opts / (broyden_damping v * norm2 p) else 1
              else 1 in
    vminus (v_x v') (v_x v) = map (Rmult mu) p.
  Proof.
    intros (S1 & S2 & S3 & S4) (Jf & dx & df & xtJ & Jdf & left & H1 & H2 & H3 & H4 & H5 & H6 & H7 & H8 & H9 & H10).
    rewrite damping_R in H2. change (-. broyden_damping v)%sc with (- broyden_damping v) in H2.
    apply mv_R in H1. destruct H1 as (M1 & M2 & M3). rewrite S1, S2 in * .
    apply limit_R in H2; [|apply damping_pos].
    assert (Hp : vscale (- broyden_damping v) Jf = broyden_full_step v).
    { unfold broyden_full_step. apply vec_ext; [rewrite vscale_length, vtab_length; congruence|]. intros i Hi. rewrite vscale_length in Hi.
      rewrite ventry_vscale, M3 by congruence. rewrite ventry_vt by congruence. rewrite S4. reflexivity. }
    rewrite Hp in H2. apply vadd_R in H3. destruct H3 as (A1 & A2 & A3).
    apply vsub_R in H4. destruct H4 as (B1 & B2 & B3). apply vsub_R in H5. destruct H5 as (C1 & C2 & C3).
    apply vsub_R in H9. destruct H9 as (D1 & D2 & D3).
    apply mv_R in H6. destruct H6 as (X1 & X2 & X3). unfold transpose in X1, X2. rewrite mtab_ncols in X1. cbn [nrows mtab] in X2. 
    apply madd_R in H10; [|exact S3|apply mtab_wf]. destruct H10 as (N1 & N2 & N3 & N4 & N5 & N6).
    split; [|split; [exact M1|split; [congruence|]]].
    - split; [congruence|]. split; [congruence|]. split; [exact N5|congruence].
    - cbv zeta. rewrite <- (map_ext (fun a => (if Rlt_dec 0 (o_max_step opts)
              then if Rlt_dec (o_max_step opts) (broyden_damping v * norm2 (broyden_full_step v)) then o_max_step opts / (broyden_damping v * norm2 (broyden_full_step v)) else 1
              else 1) * a)) by reflexivity. rewrite <- H2.
      unfold vminus. apply vec_ext; [rewrite vtab_length; congruence|]. intros i Hi. rewrite vtab_length in Hi. rewrite ventry_vt by exact Hi. rewrite A3. ring.
  Qed.

  Lemma broyden_secant n v v' : bshape n v -> broyden_move opts v v' -> secant_denominator v v' <> 0 -> secant_condition v v'.
  Proof.
    intros (S1 & S2 & S3 & S4) (Jf & dx & df & xtJ & Jdf & left & H1 & _ & _ & H4 & H5 & H6 & H7 & H8 & H9 & H10).
    apply mv_R in H1. destruct H1 as (M1 & M2 & M3). 
    apply vsub_R in H4. destruct H4 as (B1 & B2 & B3). apply vsub_R in H5. destruct H5 as (C1 & C2 & C3).
    apply vsub_R in H9. destruct H9 as (D1 & D2 & D3).
    apply mv_R in H6. destruct H6 as (X1 & X2 & X3). unfold transpose in X1, X2, X3. rewrite mtab_ncols in X1, X3. cbn [nrows mtab] in X2, X3.
    fold (transpose (sZ 0) (v_J v)) in X3.
    apply mv_R in H8. destruct H8 as (Y1 & Y2 & Y3).
    apply madd_R in H10; [|exact S3|apply mtab_wf]. destruct H10 as (N1 & N2 & N3 & N4 & N5 & N6).
    rewrite S1, S2 in * . unfold secant_denominator, secant_condition. rewrite S4.
    set (den := Rsum n _). intros Hden i Hi.
    assert (Hld : length left = n) by congruence. assert (Hlx : length xtJ = n) by congruence.
    assert (Hxt : forall j, (j < n)%nat -> ventry xtJ j = Rsum n (fun i => (ventry (v_x v') i - ventry (v_x v) i) * mentry (v_J v) i j)).
    { intros j Hj. rewrite X3 by exact Hj. apply Rsum_ext. intros k Hk. rewrite mentry_transpose by congruence. rewrite B3. ring. }
    assert (Hdot : la_dot xtJ df = den).
    { rewrite exact_dot by congruence. rewrite Hlx. unfold den. apply Rsum_ext. intros j Hj. rewrite C3, Hxt by exact Hj. reflexivity. }
    rewrite (Rsum_ext _ _ (fun j => mentry (v_J v) i j * ventry df j + (ventry left i / den) * (ventry xtJ j * ventry df j))).
    2:{ intros j Hj. rewrite N6 by assumption. rewrite mentry_vt by congruence. rewrite Hdot. rewrite <- C3.
        change (nth i left (sZ 0)) with (ventry left i). change (nth j xtJ (sZ 0)) with (ventry xtJ j). cbn [sdiv smul RScalar]. unfold Rdiv. ring. }
    rewrite Rsum_plus, Rsum_scal. rewrite <- Y3 by exact Hi.
    replace (Rsum n (fun i0 => ventry xtJ i0 * ventry df i0)) with den by (rewrite <- Hdot; rewrite exact_dot by congruence; rewrite Hlx; reflexivity).
    rewrite D3, <- B3. field. exact Hden.
  Qed.

  Lemma broyden_chain x v0 V : v_x v0 = x -> v_J v0 = eye (length x) -> consecutive (broyden_move opts) (v0 :: V) ->
    consecutive (fun v v' => bshape (length x) v /\ broyden_move opts v v') (v0 :: V).
  Proof.
    intros Hx HJ Hc.
    assert (H : forall k v, nth_error (v0 :: V) k = Some v -> bshape (length x) v).
    { induction k as [|k IH]; intros v Hv.
      - injection Hv as <-. apply bshape_eye; [exact HJ|rewrite Hx; reflexivity].
      - destruct (nth_error (v0 :: V) k) as [u|] eqn:Eu.
        2:{ apply nth_error_None in Eu. assert (nth_error (v0 :: V) (S k) <> None) by congruence. apply nth_error_Some in H. lia. }
        exact (proj1 (broyden_step _ u v (IH u eq_refl) (Hc k u v Eu Hv))). }
    intros k a b Ha Hb. split; [exact (H k a Ha)|exact (Hc k a b Ha Hb)].
  Qed.
End BroydenR.

(** ** The property theorems *)
Lemma consecutive_imp {A} (P Q : A -> A -> Prop) l : (forall a b, P a b -> Q a b) -> consecutive P l -> consecutive Q l.
Proof. intros H Hc k a b H1 H2. eapply H, Hc; eauto. Qed.

Lemma broyden_properties {LA : LinAlg R} {HP : ExactProducts LA} {E : Env R} {St} (F : nfunctor R St) x opts stats quiet s l s' l' x' st pr :
  broyden_iterate (nlogged F) x opts stats quiet (s, l) = ((s', l'), Ok (x', st, pr)) ->
  exists v0 V, v_x v0 = x /\ v_J v0 = eye (length x) /\ l' = l ++ broyden_log v0 V /\ x' = v_x (last V v0) /\
    st_iters st = (1 + Z.of_nat (length V))%Z /\
    consecutive (fun v v' => length (v_r v) = length x) (v0 :: V) /\ ((1 < o_maxit opts)%Z -> V <> []) /\
    consecutive (fun v v' => secant_denominator v v' <> 0 -> secant_condition v v') (v0 :: V) /\
    (o_max_step opts <= 0 -> consecutive (fun v v' => vminus (v_x v') (v_x v) = broyden_full_step v) (v0 :: V)) /\
    (0 < o_max_step opts -> consecutive (broyden_update_length (o_max_step opts)) (v0 :: V)).
Proof.
  intros Hr. apply broyden_run in Hr. destruct Hr as (v0 & V & Hx & _ & HJ & _ & Hlog & Hmv & Hx' & Hst & Hlen & _ & Hdone & _).
  exists v0, V. split; [exact Hx|]. split; [exact HJ|]. split; [exact Hlog|]. split; [exact Hx'|]. split; [rewrite Hst; reflexivity|].
  pose proof (broyden_chain opts x v0 V Hx HJ Hmv) as Hch.
  split. { refine (consecutive_imp _ _ _ _ Hch). intros v v' [Hs Hm]. apply (broyden_step opts _ v v' Hs Hm). }
  split. { intros H1 ->. destruct Hdone as [H _]; [simpl; lia|]. congruence. }
  split; [|split].
  - refine (consecutive_imp _ _ _ _ Hch). intros v v' [Hs Hm]. exact (broyden_secant opts _ v v' Hs Hm).
  - intros Hm0. refine (consecutive_imp _ _ _ _ Hch). intros v v' [Hs Hm]. destruct (broyden_step opts _ v v' Hs Hm) as (_ & _ & _ & H).
    cbv zeta in H. destruct (Rlt_dec 0 (o_max_step opts)); [lra|]. rewrite H. rewrite <- map_id. apply map_ext. intros; ring.
  - intros Hm0. refine (consecutive_imp _ _ _ _ Hch). intros v v' [Hs Hm]. destruct (broyden_step opts _ v v' Hs Hm) as (_ & _ & _ & H).
    cbv zeta in H. destruct (Rlt_dec 0 (o_max_step opts)) as [_|]; [|lra]. unfold broyden_update_length. cbv zeta.
    set (m := o_max_step opts) in * . set (p := broyden_full_step v) in * . set (lam := broyden_damping v) in * .
    assert (Hl : 0 < lam) by apply damping_pos. pose proof (norm2_nonneg p) as Hp.
    destruct (Rlt_dec m (lam * norm2 p)) as [H1|H1].
    + assert (norm2 (vminus (v_x v') (v_x v)) = m / lam).
      { rewrite H, norm2_map by (apply Rlt_le, Rdiv_lt_0_compat; lra). assert (norm2 p <> 0) by (intros E0; rewrite E0 in H1; lra). field. split; lra. }
      split; [lra|]. split; [auto|]. lra.
    + assert (Hv : vminus (v_x v') (v_x v) = p) by (rewrite H; rewrite <- map_id; apply map_ext; intros; ring).
      split; [auto|]. split; [lra|]. rewrite Hv. apply Rmult_le_reg_l with lam; [exact Hl|]. replace (lam * (m / lam)) with m by (field; lra). lra.
Qed.

Lemma broyden_lengths {LA : LinAlg R} {HP : ExactProducts LA} {E : Env R} {St} (F : nfunctor R St) x opts stats quiet s l s' l' x' st pr :
  broyden_iterate (nlogged F) x opts stats quiet (s, l) = ((s', l'), Ok (x', st, pr)) ->
  exists v0 V, v_x v0 = x /\ v_J v0 = eye (length x) /\ l' = l ++ broyden_log v0 V /\ x' = v_x (last V v0) /\
    (o_max_step opts <= 0 -> consecutive (fun v v' => vminus (v_x v') (v_x v) = broyden_full_step v) (v0 :: V)) /\
    (0 < o_max_step opts -> consecutive (broyden_update_length (o_max_step opts)) (v0 :: V)).
Proof. intros H. apply broyden_properties in H. destruct H as (v0 & V & H). exists v0, V. tauto. Qed.
Lemma broyden_secants {LA : LinAlg R} {HP : ExactProducts LA} {E : Env R} {St} (F : nfunctor R St) x opts stats quiet s l s' l' x' st pr :
  broyden_iterate (nlogged F) x opts stats quiet (s, l) = ((s', l'), Ok (x', st, pr)) ->
  exists v0 V, v_x v0 = x /\ v_J v0 = eye (length x) /\ l' = l ++ broyden_log v0 V /\
    st_iters st = (1 + Z.of_nat (length V))%Z /\
    (o_max_step opts <= 0 -> consecutive (fun v v' => vminus (v_x v') (v_x v) = broyden_full_step v) (v0 :: V)) /\
    consecutive (fun v v' => secant_denominator v v' <> 0 -> secant_condition v v') (v0 :: V).
Proof. intros H. apply broyden_properties in H. destruct H as (v0 & V & H). exists v0, V. tauto. Qed.

(** the limit is missed whenever it is active away from a root *)
Lemma limit_exceeded m v v' : 0 < m -> broyden_update_length m v v' -> 0 < norm2 (v_r v) -> m < broyden_damping v * norm2 (broyden_full_step v) ->
  m < norm2 (vminus (v_x v') (v_x v)).
Proof.
  intros Hm (_ & H & _) Hr Hl. rewrite (H Hl). unfold broyden_damping.
  assert (1 < sqrt (1 + norm2 (v_r v) * norm2 (v_r v))) by (rewrite <- sqrt_1; apply sqrt_lt_1_alt; split; [lra|]; rewrite sqrt_1 || idtac; pose proof (Rmult_lt_0_compat _ _ Hr Hr); lra).
  replace (m / (1 / sqrt (1 + norm2 (v_r v) * norm2 (v_r v)))) with (m * sqrt (1 + norm2 (v_r v) * norm2 (v_r v))) by (field; lra). nra.
Qed.

(** the first update: the inverse Jacobian is the identity *)
Lemma first_full_step v n : v_J v = eye n -> length (v_x v) = n -> length (v_r v) = n ->
  norm2 (broyden_full_step v) = broyden_damping v * norm2 (v_r v).
Proof.
  intros HJ Hx Hr. unfold broyden_full_step. rewrite HJ, Hx.
  replace (vtab n (fun i => - broyden_damping v * Rsum n (fun j => mentry (eye n) i j * ventry (v_r v) j))) with (map (Rmult (- broyden_damping v)) (v_r v)).
  2:{ apply vec_ext; [rewrite map_length, vtab_length; exact Hr|]. intros i Hi. rewrite map_length, Hr in Hi. rewrite ventry_vt by exact Hi.
      rewrite (ventry_map (Rmult (- broyden_damping v))) by ring. f_equal.
      rewrite (Rsum_ext _ _ (fun j => delta i j * ventry (v_r v) j)) by (intros j Hj; rewrite mentry_eye by assumption; reflexivity).
      rewrite delta_sum by exact Hi. reflexivity. }
  pose proof (damping_pos v).
  replace (map (Rmult (- broyden_damping v)) (v_r v)) with (map (Rmult (broyden_damping v)) (vopp (v_r v))).
  2:{ unfold vopp. rewrite map_map. apply map_ext. intros; ring. }
  rewrite norm2_map by lra. f_equal. unfold norm2. rewrite vopp_length. f_equal. apply Rsum_ext. intros i Hi. rewrite ventry_vopp. ring.
Qed.
Lemma broyden_first_update {LA : LinAlg R} {HP : ExactProducts LA} {E : Env R} {St} (F : nfunctor R St) x opts stats quiet s l s' l' x' st pr :
  broyden_iterate (nlogged F) x opts stats quiet (s, l) = ((s', l'), Ok (x', st, pr)) -> (1 < o_maxit opts)%Z -> 0 < o_max_step opts ->
  exists r x1 r1 l1, l' = l ++ NFun x r :: NFun x1 r1 :: l1 /\
    (o_max_step opts < norm2 r / (1 + norm2 r * norm2 r) ->
     norm2 (vminus x1 x) = o_max_step opts * sqrt (1 + norm2 r * norm2 r) /\ o_max_step opts < norm2 (vminus x1 x)).
Proof.
  intros Hr Hmax Hm. apply broyden_properties in Hr.
  destruct Hr as (u0 & U & Hux & HuJ & Hul & _ & Hui & Hlr & Hne & _ & _ & HU). specialize (HU Hm).
  destruct U as [|u1 U]; [exfalso; apply Hne; [exact Hmax|reflexivity]|].
  exists (v_r u0), (v_x u1), (v_r u1), (map (fun v => NFun (v_x v) (v_r v)) U). split; [rewrite Hul, <- Hux; reflexivity|].
  intros Hbig. specialize (HU 0%nat u0 u1 eq_refl eq_refl). specialize (Hlr 0%nat u0 u1 eq_refl eq_refl). cbv beta in Hlr.
  pose proof (norm2_nonneg (v_r u0)) as Hn. set (r := norm2 (v_r u0)) in * .
  assert (Hr0 : 0 < r) by (destruct Hn as [Hn|Hn]; [exact Hn|rewrite <- Hn in Hbig; unfold Rdiv in Hbig; rewrite Rmult_0_l in Hbig; lra]).
  assert (Hs : 0 < sqrt (1 + r * r)) by (apply sqrt_lt_R0; nra).
  assert (Hact : o_max_step opts < broyden_damping u0 * norm2 (broyden_full_step u0)).
  { rewrite (first_full_step u0 (length x) HuJ); [|rewrite Hux; reflexivity|exact Hlr]. fold r. unfold broyden_damping. fold r.
    replace (1 / sqrt (1 + r * r) * (1 / sqrt (1 + r * r) * r)) with (r / (sqrt (1 + r * r) * sqrt (1 + r * r))) by (field; lra).
    rewrite sqrt_sqrt by nra. exact Hbig. }
  rewrite <- Hux. split; [|exact (limit_exceeded _ _ _ Hm HU Hr0 Hact)].
  destruct HU as (_ & HU & _). rewrite (HU Hact). unfold broyden_damping. fold r. field. lra.
Qed.
