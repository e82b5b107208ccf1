(** irk::odeint never throws or aborts on problems whose linear systems are solvable. *)
From Coq Require Import Reals Lra.
From Verif Require Import Model.Base Model.Scalar Model.LinAlg Model.Newton Model.Enums Model.Options Model.Coeffs Model.Irk Model.IrkCoeffs.
From Verif Require Import Spec.Sums Spec.Trees Spec.RkSpec Spec.Observe Spec.ErkSpec Spec.NewtonSpec Spec.IrkSpec Spec.Methods Spec.IrkTotalSpec.
From Verif Require Import Proofs.LoopProofs Proofs.SumsProofs Proofs.OrderProofs Proofs.TablesGeneric Proofs.ErkProofs Proofs.ErkReal Proofs.ErkTimes Proofs.NewtonProofs Proofs.NewtonTotal Proofs.RVec
  Proofs.IrkProofs Proofs.IrkReal Proofs.IrkStages Proofs.IrkRun Proofs.IrkGeneric Proofs.IrkResults Proofs.IrkSteps Proofs.IrkTimes.
Local Open Scope R_scope.

Section Generic.
  Context {T : Type} `{Scalar T} `{LinAlg T} `{Env T} {St : Type}.
  Local Notation W := (world T St).
  Variables (F : functor T St) (y : list T) (t dt : T) (sc : solver_coeffs T).
  Let n := length y.
  Let ns := length (sc_b sc).
  Hypothesis HAr : nrows (sc_A sc) = ns.
  Hypothesis HAc : ncols (sc_A sc) = ns.
  Hypothesis Hc : length (sc_c sc) = ns.
  Hypothesis Hn : (0 < n)%nat.
  Hypothesis HF : returns_dim F n.

  Lemma in_world_run {A} (m : M St A) (w : W) s a : m (w_st w) = (s, Ok a) -> in_world m w = (World s (w_out w), Ok a).
  Proof. intros E. unfold in_world. rewrite E. reflexivity. Qed.
  Lemma lift_run {A} (r : res A) (w : W) a : r = Ok a -> lift r w = (w, Ok a).
  Proof. intros ->. reflexivity. Qed.

  Lemma construct_R_total Y (w : W) : length Y = (ns * n)%nat -> exists w' R, construct_R F y t dt sc Y (eye n) w = (w', Ok R) /\ length R = (ns * n)%nat.
  Proof.
    intros LY. unfold construct_R. fold n ns.
    match goal with |- context [foldM ?b _ ?a] => destruct (foldM_seq_total b (fun _ _ Fv => length Fv = (ns * n)%nat) 0 ns a w) as (w1 & Fv & Hfold & LF) end.
    - intros i wi Fi Hi LFi. rewrite (bind_run _ _ _ _ _ (lift_run _ _ _ (subvec_ok Y (n * i) n Hn ltac:(nia)))).
      rewrite (bind_run _ _ _ _ _ (lift_run _ _ _ (vget_ok (sc_c sc) i (sZ 0) ltac:(lia)))).
      assert (Lb : length (firstn n (skipn (n * i) Y)) = n) by (rewrite firstn_length, skipn_length; nia).
      destruct (vadd_len y (firstn n (skipn (n * i) Y)) ltac:(fold n; lia)) as (arg & Ea & La).
      rewrite (bind_run _ _ _ _ _ (lift_run _ _ _ Ea)).
      destruct (HF (t +. nth i (sc_c sc) (sZ 0) *. dt)%sc arg (w_st wi) La) as (s' & v & Ev & Lv).
      rewrite (bind_run _ _ _ _ _ (in_world_run _ _ _ _ Ev)).
      do 2 eexists. split; [apply lift_run, set_subvec_ok; [exact Hn|nia|exact Lv]|].
      rewrite !app_length, firstn_length, skipn_length. nia.
    - rewrite repeat_length. exact LY.
    - rewrite (bind_run _ _ _ _ _ Hfold).
      assert (Ek : ncols (kron (sc_A sc) (eye (T := T) n)) = (ns * n)%nat) by (rewrite kron_ncols, HAc; unfold eye; rewrite mtab_ncols; reflexivity).
      assert (Er : nrows (kron (sc_A sc) (eye (T := T) n)) = (ns * n)%nat) by (rewrite kron_nrows, HAr; reflexivity).
      cbv beta in LF. destruct (mv_len (kron (sc_A sc) (eye n)) Fv ltac:(rewrite Ek; exact LF)) as (AF & E1 & L1). rewrite (bind_run _ _ _ _ _ (lift_run _ _ _ E1)).
      destruct (vsub_len Y (vscale dt AF)) as (R & E2 & L2); [unfold vscale; rewrite map_length, L1, Er; exact LY|].
      exists w1, R. split; [apply lift_run, E2|congruence].
  Qed.

  Lemma stage_matrix_total J : nrows J = n -> ncols J = n -> exists M, stage_matrix y dt sc J = Ok M.
  Proof.
    intros Jr Jc. unfold stage_matrix, msub. fold n ns.
    assert (E : msame (eye (T := T) (ns * n)) (mscale dt (kron (sc_A sc) J)) = true).
    { unfold msame. apply andb_true_iff. rewrite !Nat.eqb_eq. split.
      - cbn [mscale nrows eye mtab]. rewrite kron_nrows, HAr, Jr. reflexivity.
      - unfold eye. rewrite mtab_ncols. unfold ncols at 1. unfold mscale. cbn [mcols]. rewrite map_length. change (length (mcols ?A)) with (ncols A). rewrite kron_ncols, HAc, Jc. reflexivity. }
    rewrite E. eauto.
  Qed.
  Lemma estimate_matrix_total c (J : mat T) : nrows J = n -> ncols J = n -> exists M, msub (eye n) (mscale c J) = Ok M /\ nrows M = n /\ ncols M = n.
  Proof.
    intros Jr Jc. assert (Er : nrows (mscale c J) = n) by exact Jr. assert (Ec : ncols (mscale c J) = n) by (unfold mscale, ncols; cbn [mcols]; rewrite map_length; exact Jc).
    unfold msub, msame. unfold eye. rewrite mtab_nrows, mtab_ncols, Er, Ec, Nat.eqb_refl. cbn [andb]. eexists. split; [reflexivity|]. split; [reflexivity|].
    unfold mzip, ncols. cbn [mcols]. rewrite map_length, combine_length. change (length (mcols ?A)) with (ncols A). rewrite mtab_ncols, Ec. apply Nat.min_id.
  Qed.
End Generic.

Section Stages.
  Context {LA : LinAlg R} {HP : ExactProducts LA} {HX : ExactSolve LA} {HLU : ExactLU LA} {HE : Env R} {St : Type}.
  Local Notation W := (world R St).
  Hypothesis Hdeb : ndebug = false.
  Variables (F : functor R St) (y : list R) (t dt hmax : R) (sc : solver_coeffs R).
  Let n := length y.
  Let s := length (sc_b sc).
  Hypothesis HAr : nrows (sc_A sc) = s.
  Hypothesis HAc : ncols (sc_A sc) = s.
  Hypothesis HAw : mat_wf (sc_A sc).
  Hypothesis Hc : length (sc_c sc) = s.
  Hypothesis Hn : (0 < n)%nat.
  Hypothesis Hs : (0 < s)%nat.
  Hypothesis HF : returns_dim F n.
  Hypothesis HJ : returns_jac F n.
  Hypothesis Hsol : solvable_up_to F n sc hmax.
  Hypothesis Hdt : 0 < dt <= hmax.

  Lemma plu_total A r : invertible A -> length r = nrows A -> exists d, stage_increment true A (lu_or_reset A) r = Ok d /\ length d = nrows A.
  Proof using HLU.
    intros HA Lr. destruct (exact_lu A HA) as (l & u & p & El & HPi & HPA & HL & HU). destruct HA as (B & Hsq & _).
    unfold stage_increment, lu_or_reset. rewrite El, <- Hsq, Nat.min_id. set (N := nrows A) in * .
    set (L := mtab N N l) in * . set (U := mtab N N u) in * . set (P := mtab N N p) in * .
    assert (nP : nrows P = N) by apply mtab_nrows. assert (cP : ncols P = N) by apply mtab_ncols.
    destruct (mv_len P r ltac:(congruence)) as (PR & E1 & L1). rewrite E1. cbn [rbind].
    assert (nL : nrows (mneg L) = N) by (cbn [mneg nrows]; apply mtab_nrows).
    assert (cL : ncols (mneg L) = N) by (unfold ncols, mneg; cbn [mcols]; rewrite map_length; apply (mtab_ncols N N)).
    assert (nU : nrows U = N) by apply mtab_nrows. assert (cU : ncols U = N) by apply mtab_ncols.
    unfold trisolve. rewrite nL, cL, L1, nP, Nat.eqb_refl. cbn [andb].
    destruct (HL PR ltac:(congruence)) as (x & Ex & Sx). rewrite Ex. cbn [rbind]. rewrite nU, cU, vtab_length, Nat.eqb_refl. cbn [andb].
    destruct (HU (vtab N x) (vtab_length _ _)) as (z & Ez & Sz). rewrite Ez. eexists. split; [reflexivity|]. apply vtab_length.
  Qed.

  (** a usable matrix and its factors *)
  Definition usable (J M : mat R) (LUP : mat R * mat R * mat R) : Prop :=
    LUP = lu_or_reset M /\ invertible M /\ nrows M = (s * n)%nat /\ jac_answers F t y J /\ nrows J = n /\ ncols J = n.
  Lemma refresh_total LUP (w : W) : exists w' J M LUP', refresh_jacobi_matrix F y t dt sc true LUP w = (w', Ok (J, M, LUP')) /\ usable J M LUP'.
  Proof.
    unfold refresh_jacobi_matrix. destruct (HJ t y (w_st w) eq_refl) as (s' & J & Ej & Jr & Jc & Jw).
    rewrite (bind_run _ _ _ _ _ (in_world_run _ _ _ _ Ej)).
    destruct (stage_matrix_total y dt sc HAr HAc J Jr Jc) as (M & EM). assert (EM' := EM). unfold stage_matrix in EM'. rewrite (bind_run _ _ _ _ _ (lift_run _ _ _ EM')).
    assert (HJa : jac_answers F t y J) by (exists (w_st w), s'; exact Ej).
    destruct (stage_matrix_R y dt sc HAr HAc HAw J M EM Jw Jr Jc) as [HM HMw]. fold n s in HM.
    assert (Hi : invertible M) by (apply (proj1 Hsol) with (t := t) (y := y) (J := J) (h := dt); assumption).
    rewrite Hdeb. cbn [negb andb]. destruct (exact_lu M Hi) as (l & u & p & El & _).
    assert (E : forall w : W, match la_lu M with Some _ => ret (lu_or_reset M) | None => fail EAbort end w = (w, Ok (lu_or_reset M))) by (intros; rewrite El; reflexivity).
    rewrite (bind_run _ _ _ _ _ (E _)). do 4 eexists. split; [reflexivity|]. split; [reflexivity|]. split; [exact Hi|].
    destruct HM as (M1 & _). split; [lia|]. auto.
  Qed.

  Variables (adaptive : bool) (maxit refresh : Z) (xtol Rtol : R) (f0 j0 : nat).
  Hypothesis Hr : refresh <> 0%Z.
  Lemma stage_body_total st (w : W) : usable (sg_J st) (sg_J_Y st) (sg_LUP st) -> length (sg_Y st) = (s * n)%nat -> length (sg_R st) = (s * n)%nat ->
    exists w' st', stage_body F y t dt sc adaptive true refresh (xtol * xtol) (Rtol * Rtol) st w = (w', Ok (inl st')) /\
      usable (sg_J st') (sg_J_Y st') (sg_LUP st') /\ length (sg_Y st') = (s * n)%nat /\ length (sg_R st') = (s * n)%nat /\
      (sg_done st' = true \/ sg_iters st' = (sg_iters st + 1)%Z).
  Proof.
    intros HU LY LR. pose proof HU as (EU & Hi & HMr & _). unfold stage_body. rewrite EU.
    destruct (plu_total (sg_J_Y st) (sg_R st) Hi ltac:(congruence)) as (d & Ed & Ld). rewrite (bind_run _ _ _ _ _ (lift_run _ _ _ Ed)).
    rewrite (bind_run _ _ _ _ _ (lift_run _ _ _ (dot_self d))).
    destruct (vadd_len (sg_Y st) (vscale (sg_step st) d)) as (Y & EY & LY'); [rewrite vscale_length; congruence|]. rewrite (bind_run _ _ _ _ _ (lift_run _ _ _ EY)).
    destruct (construct_R_total F y t dt sc HAr HAc Hc Hn HF Y w ltac:(fold n s; congruence)) as (w1 & R & ER & LR'). rewrite (bind_run _ _ _ _ _ ER). fold n s in LR'.
    rewrite (bind_run _ _ _ _ _ (lift_run _ _ _ (dot_self R))). cbv zeta.
    match goal with |- context [if ?b then _ else _] => destruct b end.
    - do 2 eexists. split; [reflexivity|]. cbn [sg_J sg_J_Y sg_LUP sg_Y sg_R sg_done]. rewrite <- EU. repeat split; try assumption; [apply HU..|congruence|left; reflexivity].
    - apply Z.eqb_neq in Hr. rewrite Hr. match goal with |- context [if ?b then _ else _] => destruct b end.
      + rewrite <- EU. destruct (refresh_total (sg_LUP st) w1) as (w2 & J & M & LUP & E & HU'). rewrite (bind_run _ _ _ _ _ E).
        do 2 eexists. split; [reflexivity|]. cbn [sg_J sg_J_Y sg_LUP sg_Y sg_R sg_done sg_iters]. split; [exact HU'|]. split; [congruence|]. split; [exact LR'|right; reflexivity].
      + do 2 eexists. split; [reflexivity|]. cbn [sg_J sg_J_Y sg_LUP sg_Y sg_R sg_done sg_iters]. rewrite <- EU. split; [exact HU|]. split; [congruence|]. split; [exact LR'|right; reflexivity].
  Qed.

  Lemma newton_solve_stages_total (w : W) : exists w' sr, newton_solve_stages F y t dt sc adaptive true maxit refresh xtol Rtol f0 j0 w = (w', Ok sr).
  Proof.
    unfold newton_solve_stages. fold n s. destruct (refresh_total (mat_empty, mat_empty, mat_empty) w) as (w1 & J & M & LUP & E & HU). rewrite (bind_run _ _ _ _ _ E).
    destruct (construct_R_total F y t dt sc HAr HAc Hc Hn HF (vzeros (s * n)) w1) as (w2 & R & ER & LR); [apply repeat_length|]. fold n s in ER, LR.
    rewrite (bind_run _ _ _ _ _ ER). rewrite (bind_run _ _ _ _ _ (lift_run _ _ _ (dot_self R))). cbv zeta.
    match goal with |- context [while ?c ?b ?f ?z] =>
      destruct (while_returns c b (fun _ st => usable (sg_J st) (sg_J_Y st) (sg_LUP st) /\ length (sg_Y st) = (s * n)%nat /\ length (sg_R st) = (s * n)%nat)
                  (fun st => if sg_done st then 0%nat else Z.to_nat (maxit - sg_iters st))) with (fuel := f) (s := z) (w := w2) as (w3 & r & Hw) end.
    - intros wa st (I1 & I2 & I3) Hcd. apply andb_true_iff in Hcd. destruct Hcd as [Hnd Hit]. apply negb_true_iff in Hnd. apply Z.ltb_lt in Hit.
      destruct (stage_body_total st wa I1 I2 I3) as (w' & st' & Eb & J1 & J2 & J3 & J4). do 2 eexists. split; [exact Eb|]. split; [auto|]. rewrite Hnd.
      destruct J4 as [J4|J4]; [rewrite J4; lia|]. destruct (sg_done st'); lia.
    - intros st Hcd. apply andb_true_iff in Hcd. destruct Hcd as [Hnd Hit]. apply negb_true_iff in Hnd. apply Z.ltb_lt in Hit. rewrite Hnd. lia.
    - cbn [sg_done sg_iters]. lia.
    - cbn [sg_J sg_J_Y sg_LUP sg_Y sg_R]. split; [exact HU|]. split; [apply repeat_length|exact LR].
    - rewrite (bind_run _ _ _ _ _ Hw). destruct r as [st|[]]. do 2 eexists. reflexivity.
  Qed.
End Stages.

Section Body.
  Context {LA : LinAlg R} {HP : ExactProducts LA} {HX : ExactSolve LA} {HLU : ExactLU LA} {HE : Env R} {St : Type}.
  Local Notation W := (world R St).
  Hypothesis Hdeb : ndebug = false.
  Variables (F : functor R St) (n : nat) (t0 t1 : R) (opts : irk_options R) (oo : output_options) (m : Z) (dt0 : R).
  Variables (sc : solver_coeffs R) (nopts : options R) (mo : Z) (dw d2w : list R) (hm : R).
  Hypothesis Hst : irk_started t0 t1 opts m dt0 sc nopts mo dw d2w.
  Hypothesis Hn : (0 < n)%nat.
  Hypothesis HF : returns_dim F n.
  Hypothesis HJ : returns_jac F n.
  Hypothesis Hsol : solvable_up_to F n sc hm.
  (** the steps attempted stay below hm: the interval is that short, or max_dt is *)
  Hypothesis Hcap : t1 - t0 <= hm \/ 0 < io_max_dt opts <= hm.
  Hypothesis Hoo : usable_output oo.
  Hypothesis Had : io_adaptive opts = true.
  Hypothesis Hrf : o_refresh_jac nopts <> 0%Z.
  Let s := length (sc_b sc).

  Lemma started_dims : nrows (sc_A sc) = s /\ ncols (sc_A sc) = s /\ mat_wf (sc_A sc) /\ length (sc_c sc) = s /\ (0 < s)%nat /\ length dw = s /\ length d2w = s.
  Proof.
    destruct Hst as [Hm _ _ _ Hd _ _ _ _ (Ai & HA & Hw & H2w)]. destruct (dims_of sc _ Hd) as (L1 & L2 & L3 & L4 & L5). unfold s. rewrite L1.
    apply irk_stages_pos in Hm. apply inv_inv in HA. destruct HA as (_ & g & _ & ->). apply mv_inv in Hw, H2w. destruct Hw as (_ & _ & Hw). destruct H2w as (_ & _ & H2w).
    unfold transpose in Hw, H2w. rewrite mtab_nrows, mtab_ncols in Hw, H2w. repeat split; try assumption; try congruence. unfold mat_wf. rewrite L3. exact L5.
  Qed.

  Lemma estimate_total t h y Y J alt (w : W) : 0 < h <= hm -> length y = n -> length Y = (s * n)%nat -> jac_answers F t y J -> nrows J = n -> ncols J = n -> mat_wf J ->
    exists w' yn est calls, irk_estimate F opts sc dw d2w t h y Y J alt w = (w', Ok (yn, est, calls)) /\ length yn = n /\ length est = n.
  Proof.
    intros Hh Ly LY HJa Jr Jc Jw. destruct started_dims as (_ & _ & _ & _ & Hs & Lw & L2w).
    unfold irk_estimate. rewrite Ly. fold s.
    assert (Ec : ncols (reshape Y n s) = s) by (unfold ncols, reshape; cbn [mcols]; apply chunks_length).
    destruct (mv_len (reshape Y n s) dw ltac:(congruence)) as (dy & E & Ldy). rewrite (bind_run _ _ _ _ _ (lift_run _ _ _ E)). clear E. cbn [reshape nrows] in Ldy. rewrite Had.
    destruct (mv_len (reshape Y n s) d2w ltac:(congruence)) as (da & E & Lda). rewrite (bind_run _ _ _ _ _ (lift_run _ _ _ E)). clear E. cbn [reshape nrows] in Lda.
    destruct (HF t y (w_st w) Ly) as (s1 & f0 & E & Lf0). rewrite (bind_run _ _ _ _ _ (in_world_run _ _ _ _ E)). clear E.
    set (w1 := World s1 (w_out w)). change (smul (Scalar := RScalar)) with Rmult. set (g := sc_gamma sc * h).
    destruct (vadd_len (vscale g f0) da) as (dya & E & Ldya); [unfold vscale; rewrite map_length; congruence|]. unfold vscale in Ldya. rewrite map_length in Ldya. rewrite (bind_run _ _ _ _ _ (lift_run _ _ _ E)). clear E.
    destruct (vadd_len y dy ltac:(congruence)) as (yn & E & Lyn). rewrite (bind_run _ _ _ _ _ (lift_run _ _ _ E)). clear E.
    destruct (vadd_len y dya ltac:(congruence)) as (yp & E & Lyp). rewrite (bind_run _ _ _ _ _ (lift_run _ _ _ E)). clear E.
    destruct (vsub_len dya dy ltac:(congruence)) as (dd & E & Ldd). rewrite (bind_run _ _ _ _ _ (lift_run _ _ _ E)). clear E.
    destruct (msub (eye n) (mscale g J)) as [M|] eqn:EM.
    2: { exfalso. destruct (estimate_matrix_total y (T := R) g J) as (M & EM' & _); rewrite ?Ly; try assumption. rewrite Ly in EM'. congruence. }
    rewrite (bind_run _ _ _ _ _ (lift_run _ _ _ (eq_refl (Ok M)))). destruct (eye_minus _ _ _ _ EM Jw) as (_ & _ & Mr & Mc & Me).
    assert (Hi : invertible M).
    { destruct (proj2 Hsol t y J h HJa Jr Jc Hh) as (C & C1 & C2 & C3 & C4). fold g in C1, C2, C3, C4. unfold one_minus in C1, C2, C3, C4.
      rewrite mtab_nrows in C2, C4. rewrite mtab_ncols in C3. exists C. unfold is_inverse. rewrite Mr, Mc. repeat split; try assumption.
      - destruct (C4 i j) as [D _]; [assumption..|]. rewrite <- D. apply Rsum_ext. intros k Hk. rewrite Me, mentry_vt by assumption. reflexivity.
      - destruct (C4 i j) as [_ D]; [assumption..|]. rewrite <- D. apply Rsum_ext. intros k Hk. rewrite Me, mentry_vt by assumption. reflexivity. }
    assert (Sol : forall b, length b = n -> exists e, solve M b = Ok e /\ length e = n).
    { intros b Lb. unfold solve. rewrite Mr, Lb, Nat.eqb_refl. destruct (exact_solve M b Hi ltac:(congruence)) as (x & -> & _). eexists. split; [reflexivity|]. rewrite vtab_length. exact Mc. }
    destruct (Sol dd ltac:(congruence)) as (e & E & Le). rewrite (bind_run _ _ _ _ _ (lift_run _ _ _ E)). clear E. cbv zeta.
    assert (Ls : length (vscale h e) = n) by (unfold vscale; rewrite map_length; exact Le).
    destruct alt.
    - destruct (vadd_len y (vscale h e) (eq_trans Ly (eq_sym Ls))) as (arg & E & La). rewrite (bind_run _ _ _ _ _ (lift_run _ _ _ E)). clear E.
      destruct (HF t arg (w_st w1) ltac:(congruence)) as (s2 & f1 & E & Lf1). rewrite (bind_run _ _ _ _ _ (in_world_run _ _ _ _ E)). clear E.
      destruct (vadd_len (vscale g f1) da) as (dyaa & E & Ldyaa); [unfold vscale; rewrite map_length; congruence|]. unfold vscale in Ldyaa. rewrite map_length in Ldyaa. rewrite (bind_run _ _ _ _ _ (lift_run _ _ _ E)). clear E.
      destruct (vsub_len dyaa dy ltac:(congruence)) as (ea & E & Lea). rewrite (bind_run _ _ _ _ _ (lift_run _ _ _ E)). clear E.
      destruct (Sol ea ltac:(congruence)) as (e' & E & Le'). rewrite (bind_run _ _ _ _ _ (lift_run _ _ _ E)). clear E.
      do 4 eexists. split; [reflexivity|]. split; [congruence|]. unfold vscale. rewrite map_length. exact Le'.
    - do 4 eexists. split; [reflexivity|]. split; [congruence|exact Ls].
  Qed.

  Lemma err_tot_total y yn est : length y = n -> length yn = n -> length est = n -> exists tot, irk_err_tot opts y yn est = Ok tot /\ 0 <= tot.
  Proof.
    intros L1 L2 L3. unfold irk_err_tot.
    match goal with |- context [foldR ?b _ ?a] => destruct (foldR_seq_total b (fun _ tot => 0 <= tot) 0 (length est) a) as (tot & E & Ht) end.
    - intros i a Hi Ha. rewrite !(vget_ok _ _ 0) by lia. cbn [rbind]. eexists. split; [reflexivity|]. cbn [sadd smul RScalar].
      match goal with |- 0 <= a + ?x * ?x => pose proof (Rle_0_sqr x) as Hq; unfold Rsqr in Hq; lra end.
    - simpl. unfold Rlit. lra.
    - eauto.
  Qed.

  Lemma record_total sol k t yn est err (w : W) : exists w' sol', irk_record sc oo sol k t yn est err w = (w', Ok sol').
  Proof.
    destruct Hoo as [H1 H2]. unfold irk_record. apply Z.eqb_neq in H1. rewrite H1. destruct (Z.rem k (output_interval oo) =? 0)%Z; [|do 2 eexists; reflexivity]. cbv zeta. unfold bind.
    destruct (write_to_file oo) eqn:E; [|do 2 eexists; reflexivity]. specialize (H2 eq_refl). destruct (output_stream oo); [|congruence]. do 2 eexists; reflexivity.
  Qed.

  (** no integer overflow in this iteration *)
  Definition no_overflow (st : irk_state R) : Prop := (0 <= is_maxit st)%Z /\ (0 <= o_maxit nopts)%Z /\ (2 * is_maxit st < 2 ^ 31)%Z /\ (is_maxit st + o_maxit nopts < 2 ^ 31)%Z.
  Definition capped (st : irk_state R) : Prop := t1 - t0 <= hm \/ is_dt st <= hm.
  Lemma capped_clip st : capped st -> t0 <= is_t st -> clip t1 (is_t st) (is_dt st) <= hm.
  Proof. clear. intros Hc Ht. rewrite clip_R. pose proof (Rmin_l (is_dt st) (t1 - is_t st)). pose proof (Rmin_r (is_dt st) (t1 - is_t st)). destruct Hc; lra. Qed.
  Lemma body_total st (w : W) : length (is_y st) = n -> 0 < is_dt st -> t0 <= is_t st < t1 -> capped st -> (limit_hit opts st = false -> no_overflow st) ->
    exists w' x, irk_body F t1 opts sc oo nopts mo dw d2w st w = (w', Ok x) /\ match x with inl st' => length (is_y st') = n | inr _ => True end.
  Proof.
    intros Ly Hdt Ht Hcp HO. destruct started_dims as (Ar & Ac & Aw & Lc & Hs & Lw & L2w).
    unfold irk_body. match goal with |- context [if ?b then _ else _] => change b with (limit_hit opts st); destruct (limit_hit opts st) end.
    { do 2 eexists. split; [reflexivity|exact I]. }
    destruct (HO eq_refl) as (O1 & O2 & O3 & O4). clear HO.
    fold (clip t1 (is_t st) (is_dt st)). set (h := clip t1 (is_t st) (is_dt st)) in * .
    assert (Hh : 0 < h <= hm).
    { unfold h. split; [rewrite clip_R; apply Rmin_glb_lt; lra|apply capped_clip; [exact Hcp|lra]]. }
    destruct (newton_solve_stages_total Hdeb F (is_y st) (is_t st) h hm sc Ar Ac Aw Lc ltac:(lia) Hs ltac:(rewrite Ly; exact HF) ltac:(rewrite Ly; exact HJ) ltac:(rewrite Ly; exact Hsol) Hh
      false (is_maxit st) (o_refresh_jac nopts) (o_dx_delta nopts) (o_tol nopts) (ct_fun_evals (io_count (is_sol st))) (ct_jac_evals (io_count (is_sol st))) Hrf w) as (w1 & sr & Esr).
    rewrite (bind_run _ _ _ _ _ Esr).
    destruct (newton_solve_stages_inv F (is_y st) (is_t st) h sc false (fun _ => []) ltac:(discriminate) ltac:(discriminate) false true (is_maxit st) (o_refresh_jac nopts) (o_dx_delta nopts) (o_tol nopts) Ac Lc Hs _ _ _ _ _ Esr) as (v0 & V & D).
    destruct D as [[_ T2 _ _] _ DY DJ _ [JY Dj] Dst _ _].
    destruct (sr_status sr =? Newton.SUCCESS)%Z eqn:Est; cbn [negb].
    - apply Z.eqb_eq in Est. destruct Dst as [(_ & _ & _ & D4 & _)|(D1 & _)]; [|rewrite D1 in Est; discriminate].
      assert (LY : length (sr_Y sr) = (s * n)%nat).
      { rewrite DY. rewrite Forall_forall in T2. destruct (T2 _ (last_in V v0)) as (vals & _ & _ & L & _). rewrite L, Ly. reflexivity. }
      destruct (jo_ans _ _ _ _ _ _ _ _ _ Dj) as (u & u' & Ej). destruct (HJ (is_t st) (is_y st) u Ly) as (u2 & J' & Ej' & Jr & Jc & Jw).
      rewrite Ej in Ej'. injection Ej' as _ <-.
      destruct (estimate_total (is_t st) h (is_y st) (sr_Y sr) (sr_J sr) (is_alt st) w1 Hh Ly LY (ex_intro _ u (ex_intro _ u' Ej)) Jr Jc Jw) as (w2 & yn & est & calls & Ee & Lyn & Le).
      rewrite (bind_run _ _ _ _ _ Ee). destruct (err_tot_total (is_y st) yn est Ly Lyn Le) as (tot & Et & Ht0). rewrite (bind_run _ _ _ _ _ (lift_run _ _ _ Et)).
      assert (Eg : (tot >=?. slit 0 0)%sc = true). { change (sleb (Scalar := RScalar)) with Rleb. unfold Rleb. simpl. unfold Rlit. destruct (Rle_dec 0 tot); [reflexivity|contradiction]. }
      rewrite Eg. assert (Ea : assert_ ndebug true w2 = (w2, Ok tt)) by (unfold assert_; rewrite Hdeb; reflexivity). rewrite (bind_run _ _ _ _ _ Ea). cbv zeta. fold (measure_of tot (length est)).
      assert (Hia : forall it, (0 <= it < is_maxit st)%Z -> int_add (is_maxit st) it = Ok (is_maxit st + it)%Z).
      { intros it Hit. unfold int_add. replace (_ && _)%bool with true; [reflexivity|]. symmetry. apply andb_true_iff. rewrite Z.leb_le, Z.ltb_lt. split; lia. }
      assert (Hit : (0 <= sr_iters sr < is_maxit st)%Z) by (split; [pose proof (solve_iters F _ _ _ _ _ _ _ _ _ _ Hst _ _ _ _ _ _ _ _ _ _ _ _ Esr Est); lia|exact D4]).
      match goal with |- context [lift (irk_new_dt opts mo ?a ?b ?c ?d ?e ?f ?g)] => destruct (irk_new_dt opts mo a b c d e f g) as [nd|] eqn:End end.
      2: { exfalso. unfold irk_new_dt in End. rewrite (Hia _ Hit) in End. discriminate End. }
      rewrite (bind_run _ _ _ _ _ (lift_run _ _ _ (eq_refl (Ok nd)))).
      match goal with |- context [if ?b then _ else _] => destruct b end; cbv zeta.
      + do 2 eexists. split; [reflexivity|]. exact Ly.
      + match goal with |- context [irk_record sc oo ?a ?b ?c ?d ?e ?f] => destruct (record_total a b c d e f w2) as (w3 & sol' & Erec) end. rewrite (bind_run _ _ _ _ _ Erec).
        do 2 eexists. split; [reflexivity|]. exact Lyn.
    - rewrite Had. cbn [negb]. assert (G : exists a b, (if (is_step st - is_relax st >? 15)%Z then (m <- lift (int_add (is_maxit st) (o_maxit nopts));; ret (m, is_step st))%mon else ret (is_maxit st, is_relax st)) w1 = (w1, Ok (a, b))).
      { destruct (_ >? _)%Z; [|do 2 eexists; reflexivity]. unfold int_add. replace (_ && _)%bool with true; [do 2 eexists; reflexivity|]. symmetry. apply andb_true_iff. rewrite Z.leb_le, Z.ltb_lt. split; lia. }
      destruct G as (a & b & G). rewrite (bind_run _ _ _ _ _ G). do 2 eexists. split; [reflexivity|]. exact Ly.
  Qed.
  (** the iteration limit grows by one multiple for every 16 accepted steps, at most *)
  Definition relax_inv (st : irk_state R) : Prop := exists k, is_maxit st = (o_maxit nopts * (1 + k))%Z /\ (0 <= 16 * k <= is_relax st)%Z /\ (is_relax st <= is_step st)%Z.
  Lemma relax_overflow st B : relax_inv st -> (0 <= o_maxit nopts)%Z -> (is_step st <= B)%Z -> (o_maxit nopts * (16 + B) < 2 ^ 34)%Z -> no_overflow st.
  Proof.
    intros (k & E & Hk & Hr) Ho Hs' HB. unfold no_overflow. assert (16 * is_maxit st <= o_maxit nopts * (16 + B))%Z by (rewrite E; nia).
    assert (o_maxit nopts <= is_maxit st)%Z by (rewrite E; nia). lia.
  Qed.
  Lemma body_relax st (w w' : W) st' : relax_inv st -> irk_body F t1 opts sc oo nopts mo dw d2w st w = (w', Ok (inl st')) -> relax_inv st' /\ (is_step st <= is_step st' <= is_step st + 1)%Z.
  Proof.
    intros (k & E & Hk & Hr) Hb. apply irk_body_inv in Hb. inversion Hb as [| |w1 sr maxit relax El Ead c d Hss Hst' Hm isk EQw EQs|w1 sr w2 yn est calls err nd El Ead c d Hss Hst' Hem Hgt Hnd EQw EQs|
      w1 sr w2 yn est calls err nd w3 sol El c d Hss Hst' Hem Hgt Hnd Hrec nd' EQw EQs]; clear Hb; subst st'; unfold relax_inv; cbn [is_maxit is_relax is_step].
    - split; [|lia]. destruct (is_step st - is_relax st >? 15)%Z eqn:Eg.
      + destruct Hm as [Hm ->]. apply IZR_int_add in Hm. exists (k + 1)%Z. subst maxit. rewrite E. split; [lia|]. lia.
      + destruct Hm as [-> ->]. exists k. auto.
    - split; [exists k; auto|lia].
    - split; [exists k; split; [exact E|lia]|lia].
  Qed.
  Lemma body_capped st (w w' : W) st' : pos_state t0 st -> is_t st < t1 -> capped st -> irk_body F t1 opts sc oo nopts mo dw d2w st w = (w', Ok (inl st')) -> capped st'.
  Proof using Hst Had Hcap.
    intros (X1 & X2 & X3 & X4 & X5) Hlt Hc Hb. pose proof (capped_clip st Hc X5) as Hcl. unfold capped. destruct Hcap as [Hl|Hl]; [left; exact Hl|right].
    assert (Hh : 0 < clip t1 (is_t st) (is_dt st)) by (rewrite clip_R; apply Rmin_glb_lt; lra).
    apply irk_body_inv in Hb. inversion Hb as [| |w1 sr maxit relax El Ead c d Hss Hst' Hm isk EQw EQs|w1 sr w2 yn est calls err nd El Ead c d Hss Hst' Hem Hgt Hnd EQw EQs|
      w1 sr w2 yn est calls err nd w3 sol El c d Hss Hst' Hem Hgt Hnd Hrec nd' EQw EQs]; clear Hb; subst st'; cbn [is_dt].
    - unfold d. simpl. replace (Rlit 7 (-1)) with (7 / 10) by (unfold Rlit, Z.pow_pos; simpl; lra). lra.
    - pose proof (solve_iters _ _ _ _ _ _ _ _ _ _ _ Hst _ _ _ _ _ _ _ _ _ _ _ _ Hss Hst') as Hit. destruct Hem as [_ (tot & _ & _ & ->)]. pose proof (measure_pos tot (length est)) as Hm.
      apply irk_new_dt_R in Hnd; try assumption. destruct Hnd as (_ & _ & N3 & _). specialize (N3 (proj1 Hl)). lra.
    - pose proof (solve_iters _ _ _ _ _ _ _ _ _ _ _ Hst _ _ _ _ _ _ _ _ _ _ _ _ Hss Hst') as Hit. destruct Hem as [_ (tot & _ & _ & Eerr)]. pose proof (measure_pos tot (length est)) as Hm. rewrite <- Eerr in Hm.
      apply irk_new_dt_R in Hnd; try assumption. destruct Hnd as (_ & _ & N3 & _). specialize (N3 (proj1 Hl)). unfold nd'. rewrite Had. lra.
  Qed.
  Definition good_state (st : irk_state R) : Prop := length (is_y st) = n /\ pos_state t0 st /\ relax_inv st /\ capped st.
  Lemma good_step st (w w' : W) st' : good_state st -> is_t st < t1 -> (limit_hit opts st = false -> no_overflow st) ->
    irk_body F t1 opts sc oo nopts mo dw d2w st w = (w', Ok (inl st')) -> good_state st'.
  Proof.
    intros (G1 & G2 & G3 & G4) Ht HO Hb. destruct (body_total st w G1 (proj1 G2) ltac:(split; [apply G2|exact Ht]) G4 HO) as (w2 & x & E & Hx). rewrite Hb in E. injection E as _ <-.
    split; [exact Hx|]. split; [|split; [eapply body_relax; eassumption|eapply body_capped; eassumption]]. eapply body_pos; try eassumption. unfold Rltb. destruct (Rlt_dec (is_t st) t1); [reflexivity|contradiction].
  Qed.

  Lemma loop_progress B : (0 <= o_maxit nopts)%Z -> (o_maxit nopts * (16 + B) < 2 ^ 34)%Z -> forall fuel st (w : W), good_state st ->
    ((0 <= io_max_steps opts <= B)%Z \/ (is_step st + Z.of_nat fuel <= B + 1)%Z) ->
    exists w' r, while (fun st => is_t st <?. t1)%sc (irk_body F t1 opts sc oo nopts mo dw d2w) fuel st w = (w', r) /\ (r = Err EFuel \/ exists x, r = Ok x).
  Proof.
    intros Ho HB. induction fuel as [|fuel IH]; intros st w HG HL; cbn [while]; change (sltb (Scalar := RScalar)) with Rltb; destruct (Rltb (is_t st) t1) eqn:Et.
    - do 2 eexists. split; [reflexivity|left; reflexivity].
    - do 2 eexists. split; [reflexivity|right; eauto].
    - apply Rltb_true in Et. assert (HO : limit_hit opts st = false -> no_overflow st).
      { intros El. apply (relax_overflow st B); [apply HG|exact Ho| |exact HB]. destruct HL as [HL|HL]; [|lia]. unfold limit_hit in El. apply andb_false_iff in El.
        destruct El as [El|El]; [apply Z.leb_gt in El|apply Z.ltb_ge in El]; lia. }
      pose proof HG as (G1 & G2 & G3 & G4). destruct (body_total st w G1 (proj1 G2) ltac:(split; [apply G2|exact Et]) G4 HO) as (w1 & x & E & Hx). rewrite (bind_run _ _ _ _ _ E). destruct x as [st'|o].
      + apply IH; [eapply good_step; eassumption|]. destruct HL as [HL|HL]; [left; exact HL|right]. pose proof (proj2 (body_relax _ _ _ _ G3 E)). lia.
      + do 2 eexists. split; [reflexivity|right; eauto].
    - do 2 eexists. split; [reflexivity|right; eauto].
  Qed.
End Body.
