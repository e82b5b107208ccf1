(** Runs of the implicit integrator on dissipative linear problems. *)
From Coq Require Import Reals Lra Sorted.
From Verif Require Import Model.Base Model.Scalar Model.LinAlg Model.Newton Model.Enums Model.Options Model.Coeffs Model.IrkCoeffs Model.Irk.
From Verif Require Import Spec.Sums Spec.Trees Spec.RkSpec Spec.Observe Spec.ErkSpec Spec.NewtonSpec Spec.IrkSpec Spec.IrkRunSpec Spec.IrkTotalSpec Spec.Methods Spec.StabilitySpec.
From Verif Require Import Proofs.SumsProofs Proofs.RVec Proofs.Neumann Proofs.OrderProofs Proofs.LoopProofs Proofs.ErkReal Proofs.ErkTimes Proofs.IrkBounded Proofs.OrderTheory Proofs.IrkProofs Proofs.IrkRun Proofs.IrkGeneric Proofs.IrkResults Proofs.IrkSteps Proofs.IrkTimes Proofs.IrkMaster Proofs.IrkExact Proofs.IrkFinal Proofs.IrkTotal Proofs.IrkReturns Proofs.IrkShort Proofs.AlgStable Proofs.AlgStableTables Proofs.TablesGeneric.
Local Open Scope R_scope.

(** ** A transitive relation that holds across every accepted step holds between any two recorded points *)
Section Chain.
  Variable Rel : R * list R -> R * list R -> Prop.
  Hypothesis Rel_trans : forall p q r, Rel p q -> Rel q r -> Rel p r.
  Definition pt (x : iattempt R) : R * list R := (ia_end x, ia_yn x).

  Lemma rel_snoc l x : StronglySorted Rel l -> Forall (fun p => Rel p x) l -> StronglySorted Rel (l ++ [x]).
  Proof.
    induction l as [|a l IH]; intros Hl Hx; [repeat constructor|]. apply StronglySorted_inv in Hl. destruct Hl as [Hl Ha]. inversion Hx; subst. cbn [app].
    constructor; [apply IH; assumption|]. apply Forall_app. split; [exact Ha|repeat constructor; assumption].
  Qed.
  Lemma rel_every {A} (g : A -> R * list R) k l : forall i, StronglySorted Rel (map g l) -> StronglySorted Rel (map g (every_from k i l)).
  Proof.
    induction l as [|a l IH]; intros i Hl; [constructor|]. cbn [map] in Hl. apply StronglySorted_inv in Hl. destruct Hl as [Hl Ha]. cbn [every_from].
    destruct (Z.rem i k =? 0)%Z; [|apply IH, Hl]. cbn [app map]. constructor; [apply IH, Hl|]. rewrite Forall_forall in * . intros x Hx. apply in_map_iff in Hx. destruct Hx as (b & <- & Hb).
    apply Ha, in_map. revert Hb. generalize (i + 1)%Z. clear. induction l as [|c l IH]; intros i Hb; [contradiction|]. cbn [every_from] in Hb. apply in_app_or in Hb. destruct Hb as [Hb|Hb]; [|right; eapply IH, Hb].
    destruct (Z.rem i k =? 0)%Z; destruct Hb; [left; assumption|contradiction].
  Qed.
  Lemma rel_chain t0 y0 (atts : list (iattempt R)) : ichained t0 y0 atts -> (forall x, In x (ended Accepted atts) -> Rel (ia_t x, ia_y x) (pt x)) ->
    StronglySorted Rel ((t0, y0) :: map pt (ended Accepted atts)) /\
    Forall (fun p => p = (itime_after t0 atts, istate_after y0 atts) \/ Rel p (itime_after t0 atts, istate_after y0 atts)) ((t0, y0) :: map pt (ended Accepted atts)).
  Proof.
    induction atts as [|a atts IH] using rev_ind; intros Hc Hp.
    - split; [repeat constructor|]. constructor; [left; reflexivity|constructor].
    - apply ichained_snoc in Hc. destruct Hc as (Hc & E1 & E2).
      destruct (IH Hc) as [I1 I2]; [intros x Hx; apply Hp; rewrite ended_snoc; apply in_or_app; left; exact Hx|].
      unfold itime_after, istate_after. rewrite ended_snoc in * . destruct (outcome_eqb (ia_out a) Accepted) eqn:Eo; [|rewrite app_nil_r; auto].
      rewrite !map_app. cbn [map]. rewrite !last_last. change ((t0, y0) :: map pt (ended Accepted atts) ++ [pt a]) with (((t0, y0) :: map pt (ended Accepted atts)) ++ [pt a]).
      assert (Ha : Rel (itime_after t0 atts, istate_after y0 atts) (pt a)) by (rewrite <- E1, <- E2; apply Hp, in_or_app; right; left; reflexivity).
      assert (Hlt : Forall (fun p => Rel p (pt a)) ((t0, y0) :: map pt (ended Accepted atts))).
      { eapply Forall_impl; [|exact I2]. intros p [->|Hr]; [exact Ha|exact (Rel_trans _ _ _ Hr Ha)]. }
      split; [apply rel_snoc; assumption|]. apply Forall_app. split; [|constructor; [left; reflexivity|constructor]].
      eapply Forall_impl; [|exact Hlt]. intros p Hr. right. exact Hr.
  Qed.
  Lemma rel_nth l d : StronglySorted Rel l -> forall i j, (i < j)%nat -> (j < length l)%nat -> Rel (nth i l d) (nth j l d).
  Proof.
    induction 1 as [|a l Hl IH Ha]; intros i j Hij Hj; [simpl in Hj; lia|]. destruct j as [|j]; [lia|]. simpl in Hj. destruct i as [|i]; cbn [nth]; [|apply IH; lia].
    rewrite Forall_forall in Ha. apply Ha, nth_In. lia.
  Qed.
  Lemma rel_records t0 y0 oo atts sol : records t0 y0 oo atts sol -> ichained t0 y0 atts -> (forall x, In x (ended Accepted atts) -> Rel (ia_t x, ia_y x) (pt x)) ->
    length (io_t_vals sol) = length (io_y_vals sol) /\
    forall i j, (i < j)%nat -> (j < length (io_y_vals sol))%nat -> Rel (nth i (io_t_vals sol) 0, nth i (io_y_vals sol) []) (nth j (io_t_vals sol) 0, nth j (io_y_vals sol) []).
  Proof.
    intros (R1 & R2 & _) Hc Hp. destruct (rel_chain t0 y0 atts Hc Hp) as [S1 _]. set (kept := if store_in_vectors oo then shown oo atts else []) in * .
    assert (S2 : StronglySorted Rel ((t0, y0) :: map pt kept)).
    { unfold kept. destruct (store_in_vectors oo); [|repeat constructor]. apply StronglySorted_inv in S1. destruct S1 as [S1 S3]. constructor; [apply rel_every, S1|].
      rewrite Forall_forall in * . intros p Hin. apply in_map_iff in Hin. destruct Hin as (x & <- & Hx). apply S3, in_map, (every_in _ _ _ Hx). }
    rewrite R1, R2. split; [simpl; rewrite !map_length; reflexivity|]. intros i j Hij Hj. simpl in Hj. rewrite map_length in Hj.
    assert (E : forall k, (k < S (length kept))%nat -> nth k ((t0, y0) :: map pt kept) (0, []) = (nth k (t0 :: map ia_end kept) 0, nth k (y0 :: map ia_yn kept) [])).
    { intros [|k] Hk; [reflexivity|]. cbn [nth]. destruct (nth_error kept k) as [x|] eqn:Ex; [|apply nth_error_None in Ex; lia].
      rewrite (nth_indep _ (0, []) (pt x)) by (rewrite map_length; lia). rewrite (nth_indep _ 0 (ia_end x)) by (rewrite map_length; lia). rewrite (nth_indep _ [] (ia_yn x)) by (rewrite map_length; lia).
      rewrite !map_nth. reflexivity. }
    rewrite <- !E by lia. apply rel_nth; [exact S2|exact Hij|]. simpl. rewrite map_length. exact Hj.
  Qed.
End Chain.

(** ** Decay *)
Definition decays (n : nat) (k : R) (p q : R * list R) : Prop := fst p <= fst q /\ (1 + k * (fst q - fst p)) * norm2 n (snd q) <= norm2 n (snd p).
Lemma norm2_pos n y : 0 <= norm2 n y.
Proof. apply Rsum_nonneg. intros. apply Rle_0_sqr. Qed.
Lemma decays_trans n k : 0 <= k -> forall p q r, decays n k p q -> decays n k q r -> decays n k p r.
Proof.
  intros Hk [t1 y1] [t2 y2] [t3 y3]. unfold decays. simpl. intros [T1 D1] [T2 D2]. split; [lra|].
  assert (H1 : 0 <= k * (t2 - t1)) by (apply Rmult_le_pos; lra). assert (H2 : 0 <= k * (t3 - t2)) by (apply Rmult_le_pos; lra). pose proof (norm2_pos n y3) as H3.
  pose proof (Rmult_le_compat_l (1 + k * (t2 - t1)) _ _ ltac:(lra) D2) as H4. pose proof (Rmult_le_pos _ _ (Rmult_le_pos _ _ H1 H2) H3) as H5. nra.
Qed.

Lemma damped_dissipative mu n G : 0 <= mu -> damped_by mu n G -> dissipative n G.
Proof.
  intros Hmu H x. eapply Rle_trans; [apply H|]. assert (0 <= Rsum n (fun p => x p * x p)) by (apply Rsum_nonneg; intros; apply Rle_0_sqr). nra.
Qed.
Section Runs.
  Context {LA : LinAlg R} {HP : ExactProducts LA} {HX : ExactSolve LA} {HLU : ExactLU LA} {HI : ExactInverse LA} {HE : Env R} {St : Type}.
  Local Notation W := (world R St).
  Variables (F : functor R St) (n : nat) (G : nat -> nat -> R) (m : Z) (wt : R).
  Hypothesis Hm : In (m, wt) last_weights.
  Hypothesis HG0 : dissipative n G.
  Hypothesis HF : computes F (linear_rhs n G).
  Hypothesis HJ : jac_is F n G.

  Lemma linear_solvable sc hmax : irk_get_coefficients m = Ok sc -> solvable_up_to F n sc hmax.
  Proof.
    intros Hg. destruct (closed_stable m wt sc Hm Hg) as [[T1 T2 T3 T4 T5] _]. split.
    - intros t y J h M Ha Hh HM Hw0. destruct (HJ t y J Ha) as (_ & _ & _ & E). refine (dissipative_stage_matrix _ _ _ T2 T3 n G h J M HG0 _ E HM); lra.
    - intros t y J h Ha _ _ Hh. destruct (HJ t y J Ha) as (_ & _ & _ & E). refine (dissipative_one_minus n G J _ HG0 _ E); apply Rmult_le_pos; lra.
  Qed.

  Lemma weight_pos : 0 <= wt.
  Proof. clear - Hm. unfold last_weights in Hm. cbn [In] in Hm. destruct Hm as [H|[H|[H|[H|[H|[]]]]]]; injection H as _ <-; lra. Qed.
  Lemma linear_jac_matrices : jac_matrices F.
  Proof. intros t y J Ha. apply (HJ t y J Ha). Qed.

  (** one step *)
  Lemma solved_decays mu sc Rtol xtol atol rtol x Y J d d2 : 0 <= mu -> damped_by mu n G -> irk_get_coefficients m = Ok sc -> length (ia_y x) = n -> 0 < ia_dt x ->
    solved_step F (linear_rhs n G) sc Rtol xtol atol rtol x Y J d d2 -> decays n (2 * mu * wt) (ia_t x, ia_y x) (pt x).
  Proof.
    intros Hmu HG Hg N3 N2 [S1 S2 S3 (Y0 & J0 & e & S4 & S5 & S6 & S7) S8 S9 S10 [S11 S12] S13 S14]. rewrite N3 in * .
    destruct (closed_stable m wt sc Hm Hg) as [[T1 T2 T3 T4 T5] Tw].
    destruct (HJ _ _ _ S5) as (_ & _ & _ & EJ).
    assert (Hz : forall i p, (i < length (sc_b sc))%nat -> (p < n)%nat -> stage_defect n (length (sc_b sc)) (mfun (sc_A sc)) (vfun (sc_c sc)) (linear_rhs n G) (ia_t x) (ia_dt x) (ia_y x) Y i p = 0).
    { eapply (newton_linear n _ _ _ G _ _ _ J0 Y0 Y e); [exact EJ| |exact S6]. intros M HM. refine (dissipative_stage_matrix _ _ _ T2 T3 n G _ J0 M HG0 _ EJ HM); lra. }
    pose proof (zero_defect_step _ _ _ _ _ _ _ _ _ _ _ _ S9 Hz S3 S11 S12) as Hrk.
    assert (Hdx : 0 <= ia_dt x) by lra. unfold decays, pt, ia_end. simpl. split; [lra|].
    pose proof (linear_contracts _ _ _ T2 n _ G mu _ _ _ _ _ T1 T4 Hmu Hdx HG Hrk) as HC. rewrite Tw in HC.
    replace (ia_t x + ia_dt x - ia_t x) with (ia_dt x) by ring. replace (2 * mu * wt * ia_dt x) with (2 * mu * ia_dt x * wt) by ring. exact HC.
  Qed.

  Lemma linear_decay mu fuel t0 t1 y0 opts oo dt (w w' : W) sol : 0 <= mu -> damped_by mu n G -> length y0 = n -> (ndebug = false \/ (t0 < t1 /\ 0 < dt)) ->
    irk_odeint fuel F t0 t1 y0 opts oo m dt w = (w', Ok sol) ->
    length (io_t_vals sol) = length (io_y_vals sol) /\
    forall i j, (i < j)%nat -> (j < length (io_y_vals sol))%nat -> nth i (io_t_vals sol) 0 <= nth j (io_t_vals sol) 0 /\
      (1 + 2 * mu * wt * (nth j (io_t_vals sol) 0 - nth i (io_t_vals sol) 0)) * norm2 n (nth j (io_y_vals sol) []) <= norm2 n (nth i (io_y_vals sol) []).
  Proof.
    intros Hmu HG Hn Hstart Hrun. pose proof weight_pos as Hwt.
    destruct (irk_run_R F (linear_rhs n G) HF linear_jac_matrices fuel t0 t1 y0 opts oo m dt Hstart _ _ _ Hrun) as (sc & nopts & atts & Hg & _ & _ & _ & _ & _ & _ & Hrec & Hch & Hall & _).
    assert (Hk : 0 <= 2 * mu * wt) by (apply Rmult_le_pos; lra).
    apply (rel_records (decays n (2 * mu * wt)) (decays_trans n _ Hk) t0 y0 oo atts sol Hrec Hch).
    intros x Hx. apply ended_in in Hx. destruct Hx as [Hx Ho]. rewrite Forall_forall in Hall. destruct (Hall x Hx) as (_ & N2 & N3 & N4). rewrite Hn in N3.
    destruct (N4 ltac:(congruence)) as (_ & _ & Y & J & d & d2 & Hs). exact (solved_decays mu sc _ _ _ _ x Y J d d2 Hmu HG Hg N3 (proj1 N2) Hs).
  Qed.

  (** ** The integrator returns: the states stay in a ball, in which slopes are bounded *)
  Lemma body_norm t0 t1 opts oo dt sc nopts mo dw d2w (Hst : irk_started t0 t1 opts m dt sc nopts mo dw d2w) hm st (w w' : W) st' :
    good_state n t0 t1 nopts hm st -> is_t st < t1 -> irk_body F t1 opts sc oo nopts mo dw d2w st w = (w', Ok (inl st')) -> norm2 n (is_y st') <= norm2 n (is_y st).
  Proof.
    intros HGs Ht Hb. pose proof HGs as (Ly & (P1 & P2 & P3 & P4 & P5) & Hrel & Hcp). apply irk_body_inv in Hb.
    inversion Hb as [El|? ? ? Ead|w1 sr maxit relax El Ead cc d Hss Hst' Hmm isk EQw EQs|w1 sr w2 yn est calls err nd El Ead cc d Hss Hst' Hem Hgt Hnd EQw EQs|
      w1 sr w2 yn est calls err nd w3 sol El cc d Hss Hst' Hem Hgt Hnd Hrec nd' EQw EQs]; clear Hb; subst st'; cbn [is_y]; try (right; reflexivity).
    set (x := IAttempt (is_t st) d (is_y st) Accepted yn est err).
    assert (Hx : attempt_facts F t1 (is_y st) opts sc nopts dw d2w (fun _ => True) x).
    { exists st. split; [exact I|]. split; [reflexivity|]. split; [reflexivity|]. split; [reflexivity|]. split.
      - change (sltb (Scalar := RScalar)) with Rltb. unfold Rltb. destruct (Rlt_dec (is_t st) t1); [reflexivity|contradiction].
      - split; [reflexivity|]. exists w, w1, sr. split; [exact Hss|]. split; [exact Hst'|]. exists w2, calls. split; [exact Hem|exact Hgt]. }
    destruct (step_solved F (linear_rhs n G) HF linear_jac_matrices t0 t1 (is_y st) opts m dt sc nopts mo dw d2w Hst _ x Hx ltac:(discriminate)) as (_ & _ & Y & J & d1 & d2 & Hs).
    assert (Hd : 0 < d) by (unfold d; rewrite clip_R; apply Rmin_glb_lt; lra).
    destruct (solved_decays 0 sc _ _ _ _ x Y J d1 d2 (Rle_refl _) HG0 (st_sc _ _ _ _ _ _ _ _ _ _ Hst) Ly Hd Hs) as [_ D]. unfold pt, x in D. simpl in D. lra.
  Qed.

  Lemma entries_bounded : exists K, 0 <= K /\ forall p q, (p < n)%nat -> (q < n)%nat -> Rabs (G p q) <= K.
  Proof.
    exists (Rsum n (fun p => Rsum n (fun q => Rabs (G p q)))). split; [apply Rsum_nonneg; intros; apply Rsum_abs_nonneg|]. intros p q Hp Hq.
    eapply Rle_trans; [|apply (Rsum_term n (fun p => Rsum n (fun q => Rabs (G p q))) p); [intros; apply Rsum_abs_nonneg|exact Hp]].
    apply (Rsum_term n (fun q => Rabs (G p q)) q); [intros; apply Rabs_pos|exact Hq].
  Qed.
  Lemma component_norm y q : (q < n)%nat -> Rabs (ventry y q) <= 1 + norm2 n y.
  Proof.
    intros Hq. pose proof (Rsum_term n (fun p => ventry y p * ventry y p) q (fun i => Rle_0_sqr (ventry y i)) Hq) as H. cbv beta in H. fold (norm2 n y) in H.
    apply Rabs_le. pose proof (Rle_0_sqr (ventry y q - 1)) as H1. pose proof (Rle_0_sqr (ventry y q + 1)) as H2. unfold Rsqr in * . split; nra.
  Qed.
  Lemma linear_bounded V : exists B K, bounded_near F n (fun y => norm2 n y <= V) 1 B K.
  Proof.
    destruct entries_bounded as (K & HK & HGK). exists (INR n * (K * (2 + V))), K. split.
    - intros t y x s s' v p Ly HV Lx Hxy Hv Hp. assert (Ev : v = linear_rhs n G t x) by (apply (HF t x s v); rewrite Hv; reflexivity). subst v. unfold linear_rhs. rewrite ventry_vt by exact Hp.
      apply Rsum_bound. intros q Hq. rewrite Rabs_mult. apply Rmult_le_compat; try apply Rabs_pos; [apply HGK; assumption|].
      pose proof (component_norm y q Hq) as H1. pose proof (Hxy q Hq) as H2. replace (ventry x q) with (ventry y q + (ventry x q - ventry y q)) by ring. pose proof (Rabs_triang (ventry y q) (ventry x q - ventry y q)). lra.
    - intros t y J p q _ _ Ha Hp Hq. destruct (HJ _ _ _ Ha) as (_ & _ & _ & E). rewrite (E p q Hp Hq). apply HGK; assumption.
  Qed.

  Lemma linear_returns t0 t1 y0 opts oo dt nopts :
    ndebug = false -> io_newton opts = Some nopts -> (2 <= o_maxit nopts)%Z -> 0 < o_tol nopts -> o_refresh_jac nopts <> 0%Z ->
    io_adaptive opts = true -> 0 < io_abs_tol opts -> 0 <= io_rel_tol opts -> usable_output oo -> 0 < dt -> t0 < t1 -> (0 < n)%nat -> length y0 = n ->
    returns_dim F n -> returns_jac F n -> (0 <= io_max_steps opts)%Z -> (o_maxit nopts * (16 + io_max_steps opts) < 2 ^ 34)%Z ->
    exists fuel0, forall fuel (w : W), (fuel0 <= fuel)%nat -> exists w' sol, irk_odeint fuel F t0 t1 y0 opts oo m dt w = (w', Ok sol).
  Proof.
    intros Hdeb Hno Hmx Htol Hrf Had Hat Hrt Hoo Hdt Ht Hn Ly Hd Hj Hms HB. destruct (TablesGeneric.irk_get_ok (T := R) m) as (sc & Hsc & _).
    assert (Hr : In m implicit_runnable).
    { clear - Hm. unfold last_weights in Hm. cbn [In] in Hm. destruct Hm as [H|[H|[H|[H|[H|[]]]]]]; injection H as <- _; unfold implicit_runnable; cbn; tauto. }
    destruct (linear_bounded (norm2 n y0)) as (B & K & HBK).
    refine (irk_returns_near F (linear_rhs n G) t0 t1 y0 opts oo m dt nopts sc (t1 - t0) (fun y => norm2 n y <= norm2 n y0) 1 B K Hdeb Hr Hsc Hno Hmx Htol Hrf Had Hat Hrt Hoo Hdt Ht _ _ HF _ linear_jac_matrices Rlt_0_1 _ (Rle_refl _) _ _ (or_introl (Rle_refl _)) Hms HB); rewrite ?Ly; try assumption.
    - intros mo dw d2w Hst st w w' st' Hg HPy Hlt Hb. pose proof (body_norm _ _ _ _ _ _ _ _ _ _ Hst _ _ _ _ _ Hg Hlt Hb). lra.
    - apply linear_solvable, Hsc.
  Qed.
End Runs.
