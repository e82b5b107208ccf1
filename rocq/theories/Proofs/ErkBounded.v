(** Adaptive runs with a bounded right-hand side terminate (C28). *)
From Coq Require Import Reals Lra.
From Verif Require Import Model.Base Model.Scalar Model.LinAlg Model.Enums Model.Options Model.Coeffs Model.ErkCoeffs Model.Erk.
From Verif Require Import Spec.Sums Spec.Trees Spec.RkSpec Spec.Observe Spec.ErkSpec Spec.Methods.
From Verif Require Import Proofs.SumsProofs Proofs.LoopProofs Proofs.OrderProofs Proofs.TablesGeneric Proofs.CoeffsProofs Proofs.ErkCoeffsProofs Proofs.ErkProofs Proofs.ErkRun Proofs.ErkReal Proofs.ErkGeneric Proofs.ErkTimes Proofs.ErkTotal.
Local Open Scope R_scope.

Lemma total_returns {St} (F : functor R St) f n : total_fun F f -> preserves_dim f n -> returns_dim F n.
Proof.
  intros HF Hp t y s Hy. exists (fst (f_fun F t y s)), (f t y). split; [|apply Hp, Hy]. rewrite <- (HF t y s). destruct (f_fun F t y s); reflexivity.
Qed.
Lemma total_computes {St} (F : functor R St) f : total_fun F f -> computes F f.
Proof. intros HF t y s v Hv. rewrite (HF t y s) in Hv. congruence. Qed.

(** ** The error measure of a short step is small *)
Lemma rms_bound n atol rtol y y' e M : (0 < n)%nat -> 0 < atol -> 0 <= rtol -> (forall q, (q < n)%nat -> Rabs (ventry e q) <= M) ->
  rms_error n atol rtol y y' e <= M / atol.
Proof.
  intros Hn Ha Hr He. unfold rms_error.
  assert (HM : 0 <= M) by (pose proof (He 0%nat Hn); pose proof (Rabs_pos (ventry e 0)); lra).
  assert (Hq : 0 <= M / atol) by (apply Rle_mult_inv_pos; lra).
  assert (Hn' : 0 < INR n) by (apply lt_0_INR, Hn).
  rewrite <- (sqrt_pow2 (M / atol)) by exact Hq. apply sqrt_le_1_alt.
  assert (Hs : Rsum n (fun q => (ventry e q / (atol + rtol * Rmax (Rabs (ventry y q)) (Rabs (ventry y' q)))) ^ 2) <= INR n * (M / atol) ^ 2).
  { rewrite <- Rsum_const. apply Rsum_le. intros q Hq'. rewrite <- (pow2_abs (_ / _)). apply pow_incr. split; [apply Rabs_pos|].
    set (d := atol + _). assert (Hd : atol <= d).
    { unfold d. pose proof (Rmax_l (Rabs (ventry y q)) (Rabs (ventry y' q))). pose proof (Rabs_pos (ventry y q)). nra. }
    unfold Rdiv. rewrite Rabs_mult, (Rabs_right (/ d)) by (apply Rle_ge; left; apply Rinv_0_lt_compat; lra).
    apply Rmult_le_compat; [apply Rabs_pos|left; apply Rinv_0_lt_compat; lra|apply He, Hq'|apply Rinv_le_contravar; lra]. }
  apply Rmult_le_reg_r with (INR n); [exact Hn'|]. unfold Rdiv at 1. rewrite Rmult_assoc, Rinv_l by lra. lra.
Qed.

Section Bounded.
  Context {E : Env R} {LA : LinAlg R} {X : ExactProducts LA} {St : Type}.
  Variables (F : functor R St) (f : R -> list R -> list R).
  Variables (m : Z) (sc : solver_coeffs R).
  Hypothesis Hm : In m explicit_methods.
  Hypothesis Hg : erk_get_coefficients (T := R) m = Ok sc.
  Variables (t0 t1 : R) (y0 : list R) (opts : erk_options R) (oo : output_options) (mo : Z) (dt0 : R) (out0 : list (R * list R)).
  Let n := length y0.
  Let ns := length (sc_b sc).
  Hypothesis HF : total_fun F f.
  Hypothesis Hp : preserves_dim f n.
  (** The slopes of a step of allowed size from an allowed state are bounded, and the step leads to an allowed state. *)
  Variable B : R.
  Variable ok_state : R -> list R -> Prop.
  Variable ok_dt : R -> Prop.
  Hypothesis HB0 : 0 <= B.
  Hypothesis HB : forall t y d y' K, t0 <= t < t1 -> ok_state t y -> ok_dt d -> 0 < d ->
    let h := Rmin d (t1 - t) in
    rk_step n (length (sc_b sc)) (mfun (sc_A sc)) (vfun (sc_b sc)) (vfun (sc_c sc)) f t h y y' K ->
    (forall i q, (i < length (sc_b sc))%nat -> (q < n)%nat -> Rabs (ventry (nth i K []) q) <= B) /\ ok_state (t + h) y'.
  Hypothesis HD : forall err h, 0 < err -> 0 < h -> ok_dt (erk_new_dt opts mo err h).
  Hypothesis Hn : (0 < n)%nat.
  Hypothesis Hns : (0 < ns)%nat.
  Hypothesis Hdims : dims_ok sc ns = true.
  Hypothesis Hoo : write_to_file oo = true -> output_stream oo <> None.
  Hypothesis Hb2 : length (sc_b2 sc) = ns.
  Hypothesis Had : eo_adaptive opts = true.
  Hypothesis Hatol : 0 < eo_abs_tol opts.
  Hypothesis Hrtol : 0 <= eo_rel_tol opts.
  Hypothesis Ht : t0 < t1.
  Hypothesis Hdt : 0 < clip t1 t0 dt0.
  Hypothesis Hmo : (0 <= mo <= 10)%Z.
  Local Notation rinv := (run_inv t0 t1 y0 opts sc oo mo dt0 out0 false (fun _ : St => []) []).
  Local Notation halts := (halts F t1 opts sc oo mo).

  Definition Kc : R := B * Rsum ns (fun i => Rabs (vfun (sc_b2 sc) i - vfun (sc_b sc) i)) + 1.
  Definition theta : R := eo_abs_tol opts / Kc.
  Lemma Kc_pos : 0 < Kc.
  Proof.
    unfold Kc. pose proof HB0. assert (0 <= Rsum ns (fun i => Rabs (vfun (sc_b2 sc) i - vfun (sc_b sc) i))) by (apply Rsum_nonneg; intros; apply Rabs_pos). nra.
  Qed.
  Lemma theta_pos : 0 < theta.
  Proof. unfold theta. apply Rdiv_lt_0_compat; [exact Hatol|exact Kc_pos]. Qed.

  Lemma attempt_err h t y yn K est err : 0 < h -> rk_step n ns (mfun (sc_A sc)) (vfun (sc_b sc)) (vfun (sc_c sc)) f t h y yn K ->
    (forall i q, (i < ns)%nat -> (q < n)%nat -> Rabs (ventry (nth i K []) q) <= B) ->
    est = embedded_difference n ns (vfun (sc_b sc)) (vfun (sc_b2 sc)) h K ->
    err = Rmax mprec (rms_error n (eo_abs_tol opts) (eo_rel_tol opts) y yn est) -> err <= Rmax mprec (h / theta).
  Proof.
    intros Hh (Lk & _ & _) HK -> ->. apply Rle_max_compat_l. pose proof Kc_pos. pose proof HB0.
    replace (h / theta) with (h * Kc / eo_abs_tol opts) by (unfold theta; field; lra).
    apply rms_bound; try assumption. intros q Hq. unfold embedded_difference, ventry at 1. rewrite vtab_nth by exact Hq.
    rewrite Rabs_mult, (Rabs_right h) by lra. apply Rmult_le_compat_l; [lra|].
    eapply Rle_trans; [apply Rsum_abs|]. unfold Kc. rewrite <- Rsum_scal.
    eapply Rle_trans; [|apply Rlt_le, Rlt_plus_1]. apply Rsum_le. intros i Hi. rewrite Rabs_mult, Rmult_comm. apply Rmult_le_compat_r; [apply Rabs_pos|].
    apply HK; assumption.
  Qed.

  Definition kappa : R := 1 / (1 + IZR mo).
  Lemma kappa_pos : 0 < kappa.
  Proof. unfold kappa. destruct Hmo as [H0 _]. apply IZR_le in H0. apply Rdiv_lt_0_compat; lra. Qed.
  Definition theta2 : R := theta * Rpower (9 / 10) (1 + IZR mo).
  Lemma pow_small : mprec <= Rpower (9 / 10) (1 + IZR mo) <= 1.
  Proof.
    destruct Hmo as [H0 H1]. apply IZR_le in H0, H1. split.
    - apply Rle_trans with (Rpower (9 / 10) (INR 11)).
      + rewrite Rpower_pow by lra. unfold mprec. lra.
      + unfold Rpower. assert (ln (9 / 10) < ln 1) by (apply ln_increasing; lra). rewrite ln_1 in H.
        assert ((1 + IZR mo) * ln (9 / 10) >= INR 11 * ln (9 / 10)) by (replace (INR 11) with 11 by (simpl; lra); nra).
        destruct (Req_dec ((1 + IZR mo) * ln (9 / 10)) (INR 11 * ln (9 / 10))) as [->|Hne]; [right; reflexivity|left; apply exp_increasing; lra].
    - apply Rpower_le1; lra.
  Qed.
  Lemma theta2_pos : 0 < theta2 <= theta.
  Proof.
    unfold theta2. pose proof theta_pos. pose proof pow_small. pose proof (Rpower_pos (9 / 10) (1 + IZR mo)). split; [apply Rmult_lt_0_compat; lra|nra].
  Qed.
  (** growth factors *)
  Lemma growth_ge err e : 0 < err -> err <= e -> growth mo e <= growth mo err.
  Proof.
    intros H0 He. unfold growth. apply Rmult_le_compat_l; [lra|]. apply Rle_min_compat_l. apply Rle_Rpower_l; [left; apply kappa_pos|].
    unfold Rdiv. rewrite !Rmult_1_l. split; [apply Rinv_0_lt_compat; lra|apply Rinv_le_contravar; lra].
  Qed.
  Lemma growth_short : 1 <= growth mo (Rpower (9 / 10) (1 + IZR mo)).
  Proof.
    unfold growth. destruct Hmo as [H0 _]. apply IZR_le in H0.
    assert (Hr : Rpower (1 / Rpower (9 / 10) (1 + IZR mo)) (1 / (1 + IZR mo)) = 10 / 9).
    { replace (1 / Rpower (9 / 10) (1 + IZR mo)) with (Rpower (9 / 10) (- (1 + IZR mo))) by (rewrite Rpower_Ropp; field; apply Rgt_not_eq, Rpower_pos).
      rewrite Rpower_mult. replace (- (1 + IZR mo) * (1 / (1 + IZR mo))) with (- (1)) by (field; lra). rewrite Rpower_Ropp, Rpower_1 by lra. field. }
    rewrite Hr, Rmin_right by lra. lra.
  Qed.
  Definition gmin : R := growth mo (Rmax 1 ((t1 - t0) / theta)).
  Lemma gmin_pos : 0 < gmin.
  Proof. apply growth_pos. pose proof (Rmax_l 1 ((t1 - t0) / theta)). lra. Qed.

  Definition delta : R :=
    let d := Rmin (clip t1 t0 dt0) (theta2 * gmin) in if Rlt_dec 0 (eo_max_dt opts) then Rmin (eo_max_dt opts) d else d.
  Lemma delta_pos : 0 < delta.
  Proof.
    unfold delta. pose proof theta2_pos. pose proof gmin_pos. assert (0 < Rmin (clip t1 t0 dt0) (theta2 * gmin)) by (apply Rmin_glb_lt; [exact Hdt|apply Rmult_lt_0_compat; lra]).
    destruct (Rlt_dec 0 (eo_max_dt opts)); [apply Rmin_glb_lt; assumption|assumption].
  Qed.
  Lemma delta_le h : delta <= h \/ theta2 <= h -> h <= t1 - t0 -> 0 < h -> forall err, 0 < err -> err <= Rmax mprec (h / theta) ->
    delta <= erk_new_dt opts mo err h.
  Proof.
    intros Hd HhL Hh err He Hb. rewrite new_dt_R by exact He. pose proof theta_pos as Hth. pose proof theta2_pos as Hth2. pose proof gmin_pos as Hgm. pose proof pow_small as Hps.
    assert (Hcore : Rmin (clip t1 t0 dt0) (theta2 * gmin) <= h * growth mo err \/ delta <= h * growth mo err).
    { destruct (Rlt_le_dec h theta2) as [Hs|Hs].
      - right. destruct Hd as [Hd|Hd]; [|lra]. pose proof growth_short as Hgs.
        assert (Hg1 : 1 <= growth mo err).
        { eapply Rle_trans; [exact Hgs|]. apply growth_ge; [exact He|]. eapply Rle_trans; [exact Hb|]. apply Rmax_lub; [apply Hps|].
          apply Rmult_le_reg_r with theta; [exact Hth|]. unfold Rdiv. rewrite Rmult_assoc, Rinv_l by lra. unfold theta2 in Hs. lra. }
        nra.
      - left. assert (Hg1 : gmin <= growth mo err).
        { unfold gmin. apply growth_ge; [exact He|]. eapply Rle_trans; [exact Hb|]. apply Rmax_lub.
          - pose proof (Rmax_l 1 ((t1 - t0) / theta)). unfold mprec. lra.
          - eapply Rle_trans; [|apply Rmax_r]. apply Rmult_le_compat_r; [left; apply Rinv_0_lt_compat; exact Hth|exact HhL]. }
        pose proof (Rmin_r (clip t1 t0 dt0) (theta2 * gmin)). nra. }
    assert (Hdd : delta <= h * growth mo err).
    { destruct Hcore as [Hc|Hc]; [|exact Hc]. eapply Rle_trans; [|exact Hc]. unfold delta. destruct (Rlt_dec 0 (eo_max_dt opts)); [apply Rmin_r|right; reflexivity]. }
    destruct (Rlt_dec 0 (eo_max_dt opts)) eqn:Em; [|exact Hdd]. apply Rmin_glb; [|exact Hdd]. unfold delta. rewrite Em. apply Rmin_l.
  Qed.

  Lemma pow_reach (x : R) : exists j, x * (9 / 10) ^ j < theta.
  Proof.
    pose proof theta_pos as Hth. destruct (Rlt_le_dec x theta) as [Hx|Hx]; [exists 0%nat; simpl; lra|].
    assert (Hxp : 0 < x) by lra. destruct (pow_lt_1_zero (9 / 10) ltac:(rewrite Rabs_right; lra) (theta / x) ltac:(apply Rdiv_lt_0_compat; lra)) as [j Hj].
    exists j. specialize (Hj j (le_n _)). rewrite Rabs_right in Hj by (apply Rle_ge, pow_le; lra).
    apply (Rmult_lt_compat_l x) in Hj; [|exact Hxp]. replace (x * (theta / x)) with theta in Hj by (field; lra). exact Hj.
  Qed.

  Lemma bounded_halts : forall N j w s atts, rinv atts w s -> fsal_inv f sc s -> ok_state (es_t s) (es_y s) -> ok_dt (es_dt s) -> t0 <= es_t s -> delta <= es_dt s \/ t1 <= es_t s ->
    t1 - es_t s <= INR N * delta -> es_dt s * (9 / 10) ^ j < theta -> halts w s.
  Proof.
    pose proof delta_pos as Hdp. pose proof theta_pos as Hth. pose proof theta2_pos as Hth2.
    assert (Hlc : length (sc_c sc) = length (sc_b sc)) by (destruct (dims_of sc ns Hdims) as (Db & Dc & _); congruence).
    induction N as [|N IHN]; [intros j w s atts I _ _ _ _ _ HN _; simpl in HN; apply halts_done; lra|].
    induction j as [|j IHj]; intros w s atts I Hf Hok Hod Hge Hd HN Hj.
    all: destruct (Rlt_le_dec (es_t s) t1) as [Hlt|Hdone]; [|apply halts_done; exact Hdone].
    all: destruct Hd as [Hd|Hd]; [|lra].
    all: destruct (body_total F t1 y0 opts sc oo mo (total_returns _ _ _ HF Hp) Hns Hdims Hoo (fun _ => Hb2) w s (ri_Ks _ _ _ _ _ _ _ _ _ _ _ _ _ _ _ I) (ri_ylen _ _ _ _ _ _ _ _ _ _ _ _ _ _ _ I) (ri_est _ _ _ _ _ _ _ _ _ _ _ _ _ _ _ I)) as (w' & x & Hb).
    all: apply (halts_step F t1 opts sc oo mo w s w' x Hlt Hb); intros s' ->; apply erk_body_inl in Hb; destruct Hb as (w1 & Ks & ev & dy & yn & err & est & rej & nd & A).
    all: assert (Hlt' : (es_t s <?. t1)%sc = true) by (apply Rltb_true; exact Hlt).
    all: pose proof (run_step F t0 t1 y0 opts sc oo mo dt0 out0 false (fun _ : St => []) [] (fun _ _ _ => eq_refl) Hns Hlc _ _ _ _ _ _ _ _ _ _ _ _ _ _ I Hlt' A) as I'.
    all: destruct (attempt_R F f (total_computes _ _ HF) m sc Hm Hg t1 y0 opts oo mo s w w' s' w1 Ks ev dy yn err est rej nd (ri_Ks _ _ _ _ _ _ _ _ _ _ _ _ _ _ _ I) (ri_ylen _ _ _ _ _ _ _ _ _ _ _ _ _ _ _ I) Hf A) as (RK & _ & Hf' & Hc).
    all: destruct (Hc Had) as (Hest & Herr & Hrej); clear Hc.
    all: pose proof (ap_ctl _ _ _ _ _ _ _ _ _ _ _ _ _ _ _ _ _ _ _ A) as Hct; rewrite Had in Hct; destruct Hct as (_ & _ & _ & _ & _ & _ & _ & _ & _ & Hnd).
    all: pose proof (ap_next _ _ _ _ _ _ _ _ _ _ _ _ _ _ _ _ _ _ _ A) as Hnx; cbv zeta in Hnx.
    all: rewrite clip_R in *; set (h := Rmin (es_dt s) (t1 - es_t s)) in * .
    all: assert (Hh : 0 < h) by (apply Rmin_glb_lt; lra).
    all: assert (HhL : h <= t1 - t0) by (pose proof (Rmin_r (es_dt s) (t1 - es_t s)); unfold h; lra).
    all: assert (Hhd : h <= es_dt s) by apply Rmin_l.
    all: destruct (HB (es_t s) (es_y s) (es_dt s) _ _ (conj Hge Hlt) Hok Hod ltac:(lra) RK) as (HKb & Hok').
    all: pose proof (attempt_err h _ _ _ _ _ _ Hh RK HKb Hest Herr) as Hbd.
    all: assert (He : 0 < err) by (rewrite Herr; pose proof mprec_pos; pose proof (Rmax_l mprec (rms_error n (eo_abs_tol opts) (eo_rel_tol opts) (es_y s) yn est)); unfold n in *; lra).
    all: assert (Hshort : h < theta -> err < 1) by (intros Hs; eapply Rle_lt_trans; [exact Hbd|]; apply Rmax_lub_lt; [unfold mprec; lra|];
      apply Rmult_lt_reg_r with theta; [exact Hth|]; unfold Rdiv; rewrite Rmult_assoc, Rinv_l; lra).
    all: assert (Hacc : forall Ks', s' = ErkState (es_t s + h) yn nd (es_step s + 1) Ks' err est (es_sol s') -> halts w' s').
    1,3: intros Ks' Hs'; assert (Ht' : es_t s' = es_t s + h) by (rewrite Hs'; reflexivity); assert (Hd' : es_dt s' = nd) by (rewrite Hs'; reflexivity);
      destruct (Rle_dec (es_dt s) (t1 - es_t s)) as [Hle|Hgt];
      [ assert (Hhe : h = es_dt s) by (apply Rmin_left; exact Hle); destruct (pow_reach (es_dt s')) as [j' Hj'];
        apply (IHN j' w' s' _ I' Hf'); [rewrite Hs'; exact Hok'|rewrite Hd', Hnd; apply HD; assumption|lra|left; rewrite Hd', Hnd; apply delta_le; try assumption; left; lra|rewrite S_INR in HN; rewrite Ht', Hhe; lra|exact Hj']
      | assert (Hhe : h = t1 - es_t s) by (apply Rmin_right; lra); apply halts_done; lra ].
    all: destruct rej.
    1: { exfalso. destruct Hrej as [Hr _]. specialize (Hr eq_refl). simpl in Hj. assert (err < 1) by (apply Hshort; lra). lra. }
    1: { destruct Hnx as (Ks' & _ & Hs'). apply (Hacc Ks'). rewrite Hs' at 1. rewrite Hs'. reflexivity. }
    2: { destruct Hnx as (Ks' & _ & Hs'). apply (Hacc Ks'). rewrite Hs' at 1. rewrite Hs'. reflexivity. }
    assert (Hr1 : 1 <= err) by (apply Hrej; reflexivity).
    assert (Hht : theta <= h) by (destruct (Rlt_le_dec h theta) as [Hs|Hs]; [specialize (Hshort Hs); lra|exact Hs]).
    assert (Hd' : es_dt s' = nd) by (rewrite Hnx; reflexivity). assert (Ht' : es_t s' = es_t s) by (rewrite Hnx; reflexivity).
    apply (IHj w' s' _ I' Hf').
    - rewrite Hnx; exact Hok.
    - rewrite Hd', Hnd; apply HD; assumption.
    - rewrite Ht'; exact Hge.
    - left. rewrite Hd', Hnd. apply delta_le; try assumption. right. lra.
    - rewrite Ht'. exact HN.
    - rewrite Hd', Hnd, new_dt_R by exact He. pose proof (growth_rej mo err ltac:(lia) Hr1) as Hgr.
      assert (Hh9 : h * growth mo err <= 9 / 10 * es_dt s) by nra.
      assert (Hle : (if Rlt_dec 0 (eo_max_dt opts) then Rmin (eo_max_dt opts) (h * growth mo err) else h * growth mo err) <= 9 / 10 * es_dt s).
      { destruct (Rlt_dec 0 (eo_max_dt opts)); [eapply Rle_trans; [apply Rmin_r|]|]; exact Hh9. }
      simpl in Hj. pose proof (pow_le (9 / 10) j ltac:(lra)). nra.
  Qed.
End Bounded.

Section GuardedOdeint.
  Context {E : Env R} {LA : LinAlg R} {X : ExactProducts LA} {St : Type}.
  Variables (F : functor R St) (f : R -> list R -> list R) (t0 t1 : R) (y0 : list R) (opts : erk_options R) (oo : output_options) (m : Z) (dt : R) (B : R).
  Variables (ok_state : R -> list R -> Prop) (ok_dt : R -> Prop).
  Hypothesis HF : total_fun F f.
  Hypothesis Hp : preserves_dim f (length y0).
  Hypothesis HB0 : 0 <= B.
  Hypothesis HB : forall sc, erk_get_coefficients (T := R) m = Ok sc -> forall t y d y' K, t0 <= t < t1 -> ok_state t y -> ok_dt d -> 0 < d ->
    let h := Rmin d (t1 - t) in
    rk_step (length y0) (length (sc_b sc)) (mfun (sc_A sc)) (vfun (sc_b sc)) (vfun (sc_c sc)) f t h y y' K ->
    (forall i q, (i < length (sc_b sc))%nat -> (q < length y0)%nat -> Rabs (ventry (nth i K []) q) <= B) /\ ok_state (t + h) y'.
  Hypothesis HD : forall mo err h, 0 < err -> 0 < h -> ok_dt (erk_new_dt opts mo err h).
  Hypothesis Hs0 : ok_state t0 y0.
  Hypothesis Hd0 : ok_dt (clip t1 t0 dt).
  Hypothesis Hn : y0 <> [].
  Hypothesis Hm : In m explicit_embedded.
  Hypothesis Hoo : write_to_file oo = true -> output_stream oo <> None.
  Hypothesis Had : eo_adaptive opts = true.
  Hypothesis Hatol : 0 < eo_abs_tol opts.
  Hypothesis Hrtol : 0 <= eo_rel_tol opts.
  Hypothesis Ht : t0 < t1.
  Hypothesis Hdt : 0 < dt.

  Lemma embedded_explicit : In m explicit_methods.
  Proof. clear - Hm. simpl in Hm. unfold explicit_methods. simpl. tauto. Qed.
  Lemma erk_guarded_halts w : exists fuel w' sol, erk_odeint fuel F t0 t1 y0 opts oo m dt w = (w', Ok sol).
  Proof.
    pose proof embedded_explicit as Hme.
    apply (halts_odeint F t0 t1 y0 opts oo m dt (total_returns _ _ _ HF Hp) Hme Ht Hdt). intros sc a b Hg Ha Hb w0 Ks0 Hf.
    destruct (erk_get_ok (T := R) m) as (sc' & Hg' & _ & Hd). rewrite Hg in Hg'. injection Hg' as <-.
    destruct (stages_dim m sc Hme Hd) as (L1 & L2 & L3).
    assert (Hc : 0 < clip t1 t0 dt) by (rewrite clip_R; apply Rmin_glb_lt; lra).
    destruct (sc_orders m sc Hme Hg) as (p & p2 & Hin & _ & Ef). pose proof (ef_order2 _ _ _ _ _ Ef) as Ho. pose proof (ef_order _ _ _ _ _ Ef) as Ho1.
    assert (Hfacts : length (sc_b2 sc) = length (sc_b sc) /\ (0 <= Z.min a b mod 2 ^ 64 <= 10)%Z).
    { clear - Hm Hin Ho Ho1 Ha Hb L1. rewrite Ha in Ho1. rewrite Hb in Ho. unfold explicit_orders in Hin. simpl In in Hin.
      destruct Hin as [Hi|[Hi|[Hi|[Hi|[Hi|[Hi|[]]]]]]]; injection Hi as Hi1 Hi2 Hi3; subst m p p2; try (exfalso; vm_compute in Hm; intuition discriminate);
        destruct Ho as (Hl & Ho & _); injection Ho as ->; injection Ho1 as ->; (split; [congruence|vm_compute; intuition discriminate]). }
    destruct Hfacts as [Hl2 Hmo].
    assert (Ef' : eff_opts opts sc = opts) by (unfold eff_opts; rewrite Had; destruct (sc_b2 sc); [simpl in Hl2; lia|reflexivity]).
    rewrite Ef'.
    set (mo := (Z.min a b mod 2 ^ 64)%Z) in * .
    set (s0 := ErkState t0 y0 (clip t1 t0 dt) 0 Ks0 (slit 0 0) (vzeros (length y0)) (init_sol t0 y0 (junk_stages sc y0) (stage_iter_start sc))).
    pose proof (init_run F false (fun _ => []) (fun _ _ _ => eq_refl) t1 opts sc oo t0 y0 dt mo w w0 Ks0 L3 Hf) as I0.
    assert (Hny : (0 < length y0)%nat) by (destruct y0; [congruence|simpl; lia]).
    pose proof (delta_pos sc t0 t1 opts mo dt B HB0 Hatol Hc Hmo) as Hdl.
    destruct (Rarch (t1 - t0) (delta sc t0 t1 opts mo dt B) Hdl) as [N HN].
    destruct (pow_reach sc opts B HB0 Hatol (clip t1 t0 dt)) as [j Hj].
    assert (Hdd : dims_ok sc (length (sc_b sc)) = true) by (rewrite L1; exact Hd).
    assert (Hfi : fsal_inv f sc s0).
    { intros Hfs. rewrite Hfs in Hf. destruct Hf as (k & Hk & Hs). apply in_world_ok in Hk. destruct Hk as (s' & Hk & _).
      cbn [es_Ks es_t es_y s0]. rewrite (mset_col_same _ _ _ _ _ _ (mtab_dim _ _ _) Hs). f_equal.
      apply (total_computes _ _ HF t0 y0 (w_st w)). rewrite Hk. reflexivity. }
    apply (bounded_halts F f m sc Hme Hg t0 t1 y0 opts oo mo dt (w_out w) HF Hp B ok_state ok_dt HB0 (HB sc Hg) (HD mo) Hny L3 Hdd Hoo Hl2 Had Hatol Hrtol Hc Hmo N j w0 s0 [] I0 Hfi Hs0 Hd0).
    - right. reflexivity.
    - left. unfold delta. cbn [es_dt s0]. destruct (Rlt_dec 0 (eo_max_dt opts)); [eapply Rle_trans; [apply Rmin_r|]|]; apply Rmin_l.
    - exact HN.
    - exact Hj.
  Qed.
End GuardedOdeint.

Section BoundedOdeint.
  Context {E : Env R} {LA : LinAlg R} {X : ExactProducts LA} {St : Type}.
  Variables (F : functor R St) (f : R -> list R -> list R) (t0 t1 : R) (y0 : list R) (opts : erk_options R) (oo : output_options) (m : Z) (dt : R) (B : R).
  Hypothesis HF : total_fun F f.
  Hypothesis Hp : preserves_dim f (length y0).
  Hypothesis HB : forall t y q, length y = length y0 -> Rabs (ventry (f t y) q) <= B.
  Lemma erk_bounded_halts : y0 <> [] -> In m explicit_embedded -> (write_to_file oo = true -> output_stream oo <> None) -> eo_adaptive opts = true ->
    0 < eo_abs_tol opts -> 0 <= eo_rel_tol opts -> t0 < t1 -> 0 < dt ->
    forall w, exists fuel w' sol, erk_odeint fuel F t0 t1 y0 opts oo m dt w = (w', Ok sol).
  Proof.
    intros Hn Hm Hoo Had Hatol Hrtol Ht Hdt w.
    apply (erk_guarded_halts F f t0 t1 y0 opts oo m dt B (fun _ _ => True) (fun _ => True) HF Hp); try assumption; try exact I; [| |intros; exact I].
    - pose proof (HB 0 y0 0 eq_refl). pose proof (Rabs_pos (ventry (f 0 y0) 0)). lra.
    - intros sc _ t y d y' K _ _ _ _ h (_ & HK & _). split; [|exact I]. intros i q Hi Hq. destruct (HK i Hi) as [_ ->]. apply HB, vtab_length.
  Qed.
End BoundedOdeint.
