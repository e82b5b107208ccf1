(** The explicit integrator in exact arithmetic: every recorded step is a Runge-Kutta step. *)
From Coq Require Import Reals Lra.
From Verif Require Import Model.Base Model.Scalar Model.LinAlg Model.Enums Model.Options Model.Coeffs Model.ErkCoeffs Model.Erk.
From Verif Require Import Spec.Sums Spec.Trees Spec.RkSpec Spec.Observe Spec.ErkSpec Spec.Methods.
From Verif Require Import Proofs.SumsProofs Proofs.LoopProofs Proofs.OrderProofs Proofs.TablesGeneric Proofs.ErkCoeffsProofs Proofs.ErkProofs Proofs.ErkRun.
From Verif Require Import Proofs.TablesFinal.
Local Open Scope R_scope.

Lemma zipwith_vtab {T} (f : T -> T -> T) x y d : length x = length y ->
  zipwith f x y = vtab (length x) (fun q => f (nth q x d) (nth q y d)).
Proof.
  intros L. apply (list_ext_nth d).
  - rewrite zipwith_length, vtab_length by exact L. reflexivity.
  - intros i Hi. rewrite zipwith_length in Hi by exact L. rewrite vtab_nth by exact Hi.
    unfold zipwith. rewrite (nth_indep _ d (f (fst (d,d)) (snd (d,d)))) by (rewrite map_length, combine_length; lia).
    rewrite (map_nth (fun p => f (fst p) (snd p)) (combine x y) (d, d)). rewrite combine_nth by exact L. reflexivity.
Qed.
Lemma vscale_vtab (k : R) x : vscale k x = vtab (length x) (fun q => k * ventry x q).
Proof.
  apply (list_ext_nth 0).
  - rewrite vscale_length, vtab_length. reflexivity.
  - intros i Hi. rewrite vscale_length in Hi. rewrite vtab_nth by exact Hi. unfold vscale.
    rewrite (nth_indep _ 0 (k * 0)) by (rewrite map_length; exact Hi). rewrite (map_nth (fun a => k * a)). reflexivity.
Qed.
Lemma smax_R a b : smax a b = Rmax a b.
Proof. unfold smax. simpl. unfold Rltb. destruct (Rlt_dec a b); [rewrite Rmax_right|rewrite Rmax_left]; lra. Qed.
Lemma smin_R a b : smin a b = Rmin a b.
Proof. unfold smin. simpl. unfold Rltb. destruct (Rlt_dec b a); [rewrite Rmin_right|rewrite Rmin_left]; lra. Qed.
Lemma Rltb_true a b : Rltb a b = true <-> a < b.
Proof. unfold Rltb. destruct (Rlt_dec a b); split; intros; try lra; discriminate. Qed.
Lemma Rltb_false a b : Rltb a b = false <-> b <= a.
Proof. unfold Rltb. destruct (Rlt_dec a b); split; intros; try lra; discriminate. Qed.
Lemma Rleb_true a b : Rleb a b = true <-> a <= b.
Proof. unfold Rleb. destruct (Rle_dec a b); split; intros; try lra; discriminate. Qed.
Lemma Rleb_false a b : Rleb a b = false <-> b < a.
Proof. unfold Rleb. destruct (Rle_dec a b); split; intros; try lra; discriminate. Qed.
Lemma ventry_vtab n f q : (q < n)%nat -> ventry (vtab n f) q = f q.
Proof. intros Hq. unfold ventry. apply vtab_nth, Hq. Qed.
Lemma vtab_ventry y : vtab (length y) (ventry y) = y.
Proof. symmetry. apply (list_vtab 0). Qed.

(** the value of [machine_precision] *)
Definition mprec : R := 1 / 100000000000000000.
Lemma mprec_eq : machine_precision (T := R) = mprec.
Proof. unfold machine_precision, mprec; simpl. reflexivity. Qed.
Lemma mprec_pos : 0 < mprec.
Proof. unfold mprec. lra. Qed.

Section Real.
  Context {E : Env R} {LA : LinAlg R} {X : ExactProducts LA} {St : Type}.
  Local Notation W := (world R St).
  Variables (F : functor R St) (f : R -> list R -> list R).
  Hypothesis HF : computes F f.
  Variables (m : Z) (sc : solver_coeffs R).
  Hypothesis Hm : In m explicit_methods.
  Hypothesis Hg : erk_get_coefficients m = Ok sc.
  Let ns := length (sc_b sc).
  Let a := mfun (sc_A sc).
  Let b := vfun (sc_b sc).
  Let c := vfun (sc_c sc).

  Lemma sc_orders : exists p p2, In (m, p, p2) explicit_orders /\ (1 <= p)%nat /\ erk_facts m sc ns p p2.
  Proof.
    assert (G : forall p p2, In (m, p, p2) explicit_orders -> (1 <= p)%nat -> exists p p2, In (m, p, p2) explicit_orders /\ (1 <= p)%nat /\ erk_facts m sc ns p p2).
    { intros p p2 Hin Hp. exists p, p2. split; [exact Hin|]. split; [exact Hp|].
      destruct (erk_orders m p p2 Hin) as (sc' & s & Hf). pose proof (ef_get _ _ _ _ _ Hf) as Hg'. rewrite Hg in Hg'. injection Hg' as <-.
      replace ns with s; [exact Hf|]. destruct (dims_of sc s (ef_dims _ _ _ _ _ Hf)). symmetry. assumption. }
    pose proof Hm as Hi. unfold explicit_methods in Hi. simpl In in Hi.
    destruct Hi as [Hi|[Hi|[Hi|[Hi|[Hi|[Hi|[]]]]]]]; rewrite <- Hi in G |- * .
    - apply (G 1%nat None); [simpl; auto 10|lia].
    - apply (G 4%nat None); [simpl; auto 10|lia].
    - apply (G 3%nat (Some 2%nat)); [simpl; auto 10|lia].
    - apply (G 5%nat (Some 4%nat)); [simpl; auto 10|lia].
    - apply (G 5%nat (Some 4%nat)); [simpl; auto 10|lia].
    - apply (G 5%nat (Some 4%nat)); [simpl; auto 10|lia].
  Qed.
  Lemma sc_facts : (0 < ns)%nat /\ dims_ok sc ns = true /\ (forall i j, (i <= j)%nat -> (j < ns)%nat -> a i j = 0) /\
    (forall i, (i < ns)%nat -> Rsum ns (fun j => a i j) = c i) /\ Rsum ns b = 1.
  Proof.
    destruct sc_orders as (p & p2 & _ & Hp1 & [Hg' Hp Hd Hl Hr Ho He Ho2]). repeat (split; [assumption|]).
    destruct He as [Ho1 _].
    specialize (Ho1 (Node []) ltac:(simpl; lia)). unfold order_condition, weight in Ho1. cbn [stage_weight fold_right density vertices] in Ho1.
    simpl INR in Ho1. rewrite (Rsum_ext ns _ b) in Ho1 by (intros; unfold b; ring). rewrite Ho1. lra.
  Qed.
  Lemma fsal_facts : sc_FSAL sc = true -> (forall j, (j < ns)%nat -> a (ns - 1)%nat j = b j) /\ (forall j, (j < ns)%nat -> a 0%nat j = 0).
  Proof. intros Hf. destruct (erk_fsal m sc Hm Hg) as [_ H]. destruct (H Hf) as [H1 H2]. auto. Qed.

  Lemma stage_arg_R n y dt Ks i arg : length y = n -> mdim Ks n ns -> erk_stage_arg sc y dt Ks i = Ok arg ->
    arg = vtab n (fun q => ventry y q + dt * Rsum i (fun j => a i j * ventry (nth j (mcols Ks) []) q)).
  Proof.
    intros Hy Hd Hs. unfold erk_stage_arg in Hs. revert Hs.
    refine (foldR_seq _ (fun k tmp => tmp = vtab n (fun q => ventry y q + dt * Rsum k (fun j => a i j * ventry (nth j (mcols Ks) []) q))) 0 i _ _ _ _).
    - intros k tmp tmp' Hk -> Hb. inv_run. apply CoeffsProofs.mget_entry in H. destruct (mcol_inv _ _ _ _ _ Hd H1) as (_ & Hc & Hl).
      apply vadd_inv in H2. destruct H2 as (_ & -> & _). rewrite (zipwith_vtab _ _ _ 0) by (rewrite vtab_length, vscale_length; symmetry; exact Hl).
      rewrite vtab_length. apply vtab_ext. intros q Hq. rewrite vtab_nth by exact Hq. rewrite vscale_vtab, vtab_nth by (rewrite Hl; exact Hq).
      cbn [Rsum]. subst. simpl. unfold a, mfun. ring.
    - cbn [Rsum]. rewrite <- Hy at 1. rewrite <- (vtab_ventry y) at 1. rewrite Hy. apply vtab_ext. intros. ring.
  Qed.

  Lemma mv_R A x v : mat_wf A -> mv A x = Ok v -> ncols A = length x ->
    v = vtab (nrows A) (fun q => Rsum (length x) (fun i => ventry x i * ventry (nth i (mcols A) []) q)).
  Proof.
    intros Hw Hv L. apply mv_inv in Hv. destruct Hv as (_ & -> & _). apply vtab_ext. intros q Hq.
    rewrite exact_mv by (try exact Hq; congruence). rewrite L. apply Rsum_ext. intros i Hi. unfold mentry, ventry. ring.
  Qed.

  Lemma err_tot_R opts n y yn est tot : length y = n -> erk_err_tot opts y yn est = Ok tot ->
    tot = Rsum n (fun q => (ventry est q / (eo_abs_tol opts + eo_rel_tol opts * Rmax (Rabs (ventry y q)) (Rabs (ventry yn q)))) ^ 2).
  Proof.
    intros Hy He. unfold erk_err_tot in He. rewrite Hy in He. revert He.
    refine (foldR_seq _ (fun k tot => tot = Rsum k (fun q => (ventry est q / (eo_abs_tol opts + eo_rel_tol opts * Rmax (Rabs (ventry y q)) (Rabs (ventry yn q)))) ^ 2)) 0 n _ _ _ _).
    - intros i t t' Hi -> Hb. inv_run.
      repeat match goal with H : vget _ _ = Ok _ |- _ => apply (vget_inv _ _ _ 0) in H; destruct H as [_ ->] end.
      match goal with H : Ok _ = Ok _ |- _ => injection H as <- end. rewrite smax_R. cbn [Rsum]. simpl. unfold ventry. ring.
    - reflexivity.
  Qed.

  Variables (t0 t1 : R) (y0 : list R) (opts : erk_options R) (oo : output_options) (mo : Z).
  Let n := length y0.

  Definition fsal_inv (s : erk_state R) : Prop := sc_FSAL sc = true -> mcol (es_Ks s) 0 = Ok (f (es_t s) (es_y s)).

  (** a recorded step *)
  Definition step_spec (t : R) (y : list R) (t' : R) (y' z est : list R) (err : R) : Prop :=
    exists k, z = concat k /\ rk_step n ns a b c f t (t' - t) y y' k /\
    (eo_adaptive opts = true ->
       est = embedded_difference n ns b (vfun (sc_b2 sc)) (t' - t) k /\
       err = Rmax mprec (rms_error n (eo_abs_tol opts) (eo_rel_tol opts) y y' est) /\ err < 1).

  Lemma attempt_R s w w' s' w1 Ks evals dy yn err est rej nd :
    mdim (es_Ks s) n ns -> length (es_y s) = n -> fsal_inv s ->
    attempted F t1 opts sc oo mo s w w' s' w1 Ks evals dy yn err est rej nd ->
    rk_step n ns a b c f (es_t s) (clip t1 (es_t s) (es_dt s)) (es_y s) yn (mcols Ks) /\ mdim Ks n ns /\ fsal_inv s' /\
    (eo_adaptive opts = true ->
       est = embedded_difference n ns b (vfun (sc_b2 sc)) (clip t1 (es_t s) (es_dt s)) (mcols Ks) /\
       err = Rmax mprec (rms_error n (eo_abs_tol opts) (eo_rel_tol opts) (es_y s) yn est) /\
       (rej = true <-> 1 <= err)).
  Proof.
    intros Hd Hy Hf A. destruct sc_facts as (Hns & Hdims & Hlow & Hrow & Hsum). destruct (dims_of sc ns Hdims) as (Db & Dc & Dr & DA & _).
    destruct A as [Alim Aloop Ady Ayn Actl Awr Anext].
    set (h := clip t1 (es_t s) (es_dt s)) in * .
    assert (Hst : (stage_iter_start sc <= length (sc_b sc))%nat) by (unfold stage_iter_start; fold ns; destruct (sc_FSAL sc); lia).
    pose proof (stages_loop_inv F sc false (fun _ => []) (fun _ _ _ => eq_refl) n _ _ _ _ _ _ _ _ _ Hd Hst Aloop) as [SD SE SO SK SDn SL].
    cbn [fst snd] in * . fold ns in SD, SDn.
    assert (Hc0 : sc_FSAL sc = true -> c 0%nat = 0).
    { intros Hfs. rewrite <- Hrow by exact Hns. apply Rsum_0. intros j Hj. apply fsal_facts; assumption. }
    assert (Hst' : forall i, (i < ns)%nat -> length (nth i (mcols Ks) []) = n /\ nth i (mcols Ks) [] =
       f (es_t s + c i * h) (vtab n (fun q => ventry (es_y s) q + h * Rsum ns (fun j => a i j * ventry (nth j (mcols Ks) []) q)))).
    { intros i Hi. destruct (mcol_ok Ks n ns i SD Hi) as [Hcol Hlen]. split; [exact Hlen|].
      destruct (Nat.lt_ge_cases i (stage_iter_start sc)) as [Hlt|Hge].
      - unfold stage_iter_start in Hlt. destruct (sc_FSAL sc) eqn:Ef; [|lia]. assert (i = 0%nat) as -> by lia.
        specialize (SK 0%nat ltac:(unfold stage_iter_start; rewrite Ef; lia)). rewrite (Hf Ef), Hcol in SK. injection SK as SK. rewrite SK at 1.
        f_equal.
        + rewrite (Hc0 eq_refl). simpl. ring.
        + rewrite <- (vtab_ventry (es_y s)), Hy. apply vtab_ext. intros q Hq.
          rewrite (Rsum_0 ns) by (intros j Hj; rewrite (proj2 (fsal_facts Ef)) by exact Hj; ring).
          rewrite <- Hy, vtab_ventry. ring.
      - destruct (SDn i ltac:(lia)) as (arg & ci & k & s1 & s2 & A1 & A2 & A3 & A4).
        rewrite Hcol in A3. injection A3 as A3. rewrite A3.
        assert (k = f (es_t s + c i * h) arg).
        { apply (vget_inv _ _ _ 0) in A2. destruct A2 as [_ ->]. refine (HF _ _ s1 _ _). exact (f_equal snd A4). }
        rewrite H at 1. f_equal. rewrite (stage_arg_R n _ _ _ _ _ Hy SD A1). apply vtab_ext. intros q Hq. f_equal. f_equal.
        replace ns with (i + (ns - i))%nat by lia. rewrite Rsum_add.
        rewrite (Rsum_0 (ns - i)) by (intros j Hj; rewrite Hlow by lia; ring). ring. }
    assert (Wf : mat_wf Ks) by (destruct SD as (D1 & D2 & D3); unfold mat_wf; rewrite D1; exact D3).
    assert (Nc : ncols Ks = ns) by (destruct SD as (D1 & D2 & D3); exact D2).
    assert (Nr : nrows Ks = n) by (destruct SD as (D1 & D2 & D3); exact D1).
    pose proof (mv_R Ks (sc_b sc) dy Wf Ady Nc) as Hdy. rewrite Nr in Hdy. fold ns in Hdy.
    assert (Ldy : length dy = n) by (rewrite Hdy; apply vtab_length).
    assert (Hyn : yn = vtab n (fun q => ventry (es_y s) q + h * Rsum ns (fun i => b i * ventry (nth i (mcols Ks) []) q))).
    { apply vadd_inv in Ayn. destruct Ayn as (_ & -> & _). rewrite (zipwith_vtab _ _ _ 0) by (rewrite vscale_length; congruence).
      rewrite Hy. apply vtab_ext. intros q Hq. rewrite vscale_vtab, vtab_nth by congruence. simpl. f_equal. f_equal.
      rewrite Hdy. rewrite ventry_vtab by exact Hq. reflexivity. }
    assert (RK : rk_step n ns a b c f (es_t s) h (es_y s) yn (mcols Ks)).
    { split; [exact Nc|]. split; [exact Hst'|exact Hyn]. }
    split; [exact RK|]. split; [exact SD|]. split.
    - intros Ef. cbv zeta in Anext. destruct rej.
      + subst s'. cbn [es_Ks es_t es_y]. rewrite <- (Hf Ef). apply SK. unfold stage_iter_start. rewrite Ef. lia.
      + destruct Anext as (Ks' & Hh & ->). cbn [es_Ks es_t es_y]. unfold fsal_hook in Hh. rewrite Ef in Hh.
        apply rbind_ok in Hh. destruct Hh as (k & Hk & Hset). rewrite (mset_col_same _ _ _ _ _ _ SD Hset). f_equal.
        fold ns in Hk. destruct (mcol_ok Ks n ns (ns - 1) SD ltac:(lia)) as [Hcol _]. rewrite Hcol in Hk. injection Hk as <-.
        destruct (Hst' (ns - 1)%nat ltac:(lia)) as [_ ->]. destruct (fsal_facts Ef) as [Fl _]. f_equal.
        * assert (Hc1 : c (ns - 1)%nat = 1) by (rewrite <- Hrow by lia; rewrite <- Hsum; apply Rsum_ext; exact Fl). rewrite Hc1. simpl. ring.
        * rewrite Hyn. apply vtab_ext. intros q Hq. f_equal. f_equal. apply Rsum_ext. intros j Hj. rewrite Fl by exact Hj. reflexivity.
    - intros Ea. rewrite Ea in Actl. destruct Actl as (dalt & tot & C1 & C2 & C3 & C4 & C5 & C6 & C7 & C8).
      assert (Lb2 : length (sc_b2 sc) = ns) by (apply mv_inv in C1; destruct C1 as (C1 & _); congruence).
      pose proof (mv_R Ks (sc_b2 sc) dalt Wf C1 ltac:(congruence)) as Hda. rewrite Nr, Lb2 in Hda.
      assert (Hest : est = embedded_difference n ns b (vfun (sc_b2 sc)) h (mcols Ks)).
      { rewrite C3, vscale_vtab, zipwith_length, C2, Ldy by exact C2. apply vtab_ext. intros q Hq.
        rewrite (zipwith_vtab _ _ _ 0) by exact C2. rewrite ventry_vtab by congruence.
        change (ssub (Scalar := RScalar)) with Rminus. fold (ventry dalt q) (ventry dy q). rewrite Hda, Hdy, !ventry_vtab by exact Hq.
        rewrite <- Rsum_minus. f_equal. apply Rsum_ext. intros i Hi. unfold b, vfun. ring. }
      split; [exact Hest|]. apply (err_tot_R opts n) in C4; [|exact Hy].
      assert (Herr : err = Rmax mprec (rms_error n (eo_abs_tol opts) (eo_rel_tol opts) (es_y s) yn est)).
      { cbv zeta in C6. rewrite mprec_eq in C6. unfold rms_error. rewrite <- C4. rewrite Hy in C6.
        change (ssqrt (Scalar := RScalar)) with sqrt in C6. change (sdiv (Scalar := RScalar)) with Rdiv in C6. change (sltb (Scalar := RScalar)) with Rltb in C6.
        unfold sZ in C6. simpl (slit _ 0) in C6. rewrite <- INR_IZR_INZ in C6.
        destruct (Rltb (sqrt (tot / INR n)) mprec) eqn:El.
        - apply Rltb_true in El. rewrite Rmax_left by lra. exact C6.
        - apply Rltb_false in El. rewrite Rmax_right by lra. exact C6. }
      split; [exact Herr|]. rewrite C7. apply Rleb_true.
  Qed.

  Definition steps_ok (sol : erk_output R) : Prop :=
    forall k, (S k < length (eo_t_vals sol))%nat ->
    step_spec (nth k (eo_t_vals sol) 0) (nth k (eo_y_vals sol) []) (nth (S k) (eo_t_vals sol) 0) (nth (S k) (eo_y_vals sol) [])
      (nth (S k) (eo_stages sol) []) (nth (S k) (eo_err_est sol) []) (nth (S k) (eo_err sol) 0).

  Lemma nth_last {A} (l : list A) d d' : l <> [] -> nth (length l - 1) l d = last l d'.
  Proof.
    intros Hl. destruct (exists_last Hl) as (l' & x & ->). rewrite app_length. simpl. rewrite last_last, app_nth2 by lia.
    replace (length l' + 1 - 1 - length l')%nat with 0%nat by lia. reflexivity.
  Qed.
  Lemma steps_snoc sol t' y' z e err (L := length (eo_t_vals sol)) Ks :
    length (eo_y_vals sol) = L -> length (eo_stages sol) = L -> length (eo_err_est sol) = L -> length (eo_err sol) = L ->
    (0 < L)%nat -> vectorise Ks = z ->
    steps_ok sol -> step_spec (last (eo_t_vals sol) t0) (last (eo_y_vals sol) y0) t' y' z e err ->
    steps_ok (erk_record sol t' y' e Ks err).
  Proof.
    intros L1 L2 L3 L4 Lp Hz Hs Hn k Hk. cbn [erk_record eo_t_vals eo_y_vals eo_stages eo_err_est eo_err] in * . subst z.
    rewrite app_length in Hk. simpl in Hk. fold L in Hk.
    destruct (Nat.eq_dec (S k) L) as [E1|E1].
    - rewrite (app_nth1 (eo_t_vals sol)) by (fold L; lia). rewrite (app_nth1 (eo_y_vals sol)) by lia.
      rewrite (app_nth2 (eo_t_vals sol)), (app_nth2 (eo_y_vals sol)), (app_nth2 (eo_stages sol)), (app_nth2 (eo_err_est sol)), (app_nth2 (eo_err sol)) by (fold L; lia).
      rewrite L1, L2, L3, L4. fold L. rewrite E1, Nat.sub_diag. cbn [nth].
      replace k with (length (eo_t_vals sol) - 1)%nat at 1 by (fold L; lia).
      replace k with (length (eo_y_vals sol) - 1)%nat by lia.
      rewrite (nth_last _ _ t0), (nth_last _ _ y0); [exact Hn| |]; intros Hnil; apply (f_equal (@length _)) in Hnil; simpl in Hnil; unfold L in *; lia.
    - rewrite !(app_nth1 (eo_t_vals sol)) by (fold L; lia). rewrite !(app_nth1 (eo_y_vals sol)) by lia.
      rewrite (app_nth1 (eo_stages sol)), (app_nth1 (eo_err_est sol)), (app_nth1 (eo_err sol)) by lia. apply Hs. fold L. lia.
  Qed.

  Variables (dt0 : R) (out0 : list (R * list R)).
  Local Notation rinv := (run_inv t0 t1 y0 opts sc oo mo dt0 out0 false (fun _ : St => []) []).

  Lemma real_step atts w s w' s' w1 Ks evals dy yn err est rej nd : rinv atts w s -> fsal_inv s -> steps_ok (es_sol s) ->
    attempted F t1 opts sc oo mo s w w' s' w1 Ks evals dy yn err est rej nd -> fsal_inv s' /\ steps_ok (es_sol s').
  Proof.
    intros I Hf Hs A. pose proof I as [I1 I2 I3 I4 IO IA I6 I7 I8 I9 I10 I11 I12 I13 I14].
    destruct (attempt_R s w w' s' w1 Ks evals dy yn err est rej nd I10 I12 Hf A) as (RK & SD & Hf' & Hc).
    split; [exact Hf'|]. destruct A as [Alim Aloop Ady Ayn Actl Awr Anext]. cbv zeta in Anext. destruct rej.
    - subst s'. cbn [es_sol]. intros k Hk. exact (Hs k Hk).
    - destruct Anext as (Ks' & Hh & ->). cbn [es_sol]. destruct IO as [O1 O2 O3 O4 O5 O6 O7 O8 O9 O10].
      apply (steps_snoc _ _ _ (vectorise Ks)); cbn [eo_t_vals eo_y_vals eo_stages eo_err_est eo_err with_counts]; try reflexivity.
      + rewrite O3, O4. simpl. rewrite !map_length. reflexivity.
      + rewrite O3, O6. simpl. rewrite !map_length. reflexivity.
      + rewrite O3, O7. simpl. rewrite !map_length. reflexivity.
      + rewrite O3, O5. simpl. rewrite !map_length. reflexivity.
      + rewrite O3. simpl. lia.
      + intros k Hk. exact (Hs k Hk).
      + rewrite O3, last_times, <- I7, <- I8. exists (mcols Ks). split; [reflexivity|].
        change (sadd (Scalar := RScalar)) with Rplus.
        replace (es_t s + clip t1 (es_t s) (es_dt s) - es_t s) with (clip t1 (es_t s) (es_dt s)) by ring.
        split; [exact RK|]. intros Ea. destruct (Hc Ea) as (C1 & C2 & C3). split; [exact C1|]. split; [exact C2|].
        destruct (Rlt_le_dec err 1) as [Hlt|Hge]; [exact Hlt|]. apply C3 in Hge. discriminate.
  Qed.

  Lemma real_loop fuel w s w' r : rinv [] w s -> fsal_inv s -> steps_ok (es_sol s) ->
    while (fun s => es_t s <?. t1)%sc (erk_body F t1 opts sc oo mo) fuel s w = (w', Ok r) ->
    match r with inl s' => steps_ok (es_sol s') | inr sol => steps_ok sol end.
  Proof.
    intros I0 Hf0 Hs0 Hw.
    assert (Hns : (0 < length (sc_b sc))%nat) by (destruct sc_facts; assumption).
    assert (Hc : length (sc_c sc) = length (sc_b sc)) by (destruct sc_facts as (_ & Hd & _); destruct (dims_of sc ns Hd) as (? & ? & _); congruence).
    pose proof (while_inv (fun s => es_t s <?. t1)%sc (erk_body F t1 opts sc oo mo)
       (fun w s => exists atts, rinv atts w s /\ fsal_inv s /\ steps_ok (es_sol s))
       (fun w sol => steps_ok sol) fuel s w w' r) as WI.
    assert (G : match r with inl s' => (exists atts, rinv atts w' s' /\ fsal_inv s' /\ steps_ok (es_sol s')) /\ (es_t s' <?. t1)%sc = false | inr sol => steps_ok sol end).
    { apply WI; [| |exists []; auto|exact Hw].
      - intros v s1 v' s1' (atts & I & Hf & Hs) Hlt Hb. apply erk_body_inl in Hb. destruct Hb as (w1 & Ks & ev & dy & yn & err & est & rej & nd & A).
        eexists. split; [eapply run_step; try eassumption; reflexivity|]. eapply real_step; eassumption.
      - intros v s1 v' sol (atts & I & Hf & Hs) Hlt Hb. apply erk_body_inr in Hb. destruct Hb as (-> & Hl & ->).
        intros k Hk. exact (Hs k Hk). }
    destruct r as [s'|sol]; [|exact G]. destruct G as [(atts & _ & _ & G) _]. exact G.
  Qed.
End Real.

Section RealOdeint.
  Context {E : Env R} {LA : LinAlg R} {X : ExactProducts LA} {St : Type}.
  Variables (F : functor R St) (f : R -> list R -> list R).
  Hypothesis HF : computes F f.

  Lemma erk_steps fuel t0 t1 y0 opts oo m dt w w' sol : erk_odeint fuel F t0 t1 y0 opts oo m dt w = (w', Ok sol) ->
    exists sc, In m explicit_methods /\ erk_get_coefficients m = Ok sc /\ steps_ok f sc y0 (eff_opts opts sc) sol.
  Proof.
    intros Hr. apply erk_odeint_inv in Hr. destruct Hr as (Hm & sc & Hg & Hd & Hr). exists sc. split; [exact Hm|]. split; [exact Hg|].
    destruct (stages_dim m sc Hm Hd) as (L1 & L2 & L3).
    apply erk_guts_inv in Hr. destruct Hr as (Ha & a & b & Oa & Ob & w0 & Ks0 & Hf & r & Hw & ->).
    assert (Hj := mtab_dim (length y0) (length (sc_b sc)) (fun _ _ : nat => junk (T := R))). fold (junk_stages sc y0) in Hj.
    pose proof (init_run F false (fun _ => []) (fun _ _ _ => eq_refl) t1 (eff_opts opts sc) sc oo t0 y0 dt (Z.min a b mod 2 ^ 64) w w0 Ks0 L3 Hf) as I0.
    assert (G : match r with inl s' => steps_ok f sc y0 (eff_opts opts sc) (es_sol s') | inr sol => steps_ok f sc y0 (eff_opts opts sc) sol end).
    { eapply (real_loop F f HF m sc Hm Hg); [exact I0| | |exact Hw].
      - intros Ef. cbn [es_Ks es_t es_y]. rewrite Ef in Hf. destruct Hf as (k & Hk & Hs). rewrite (mset_col_same _ _ _ _ _ _ Hj Hs).
        apply in_world_ok in Hk. destruct Hk as (s' & Hk & _). f_equal. refine (HF _ _ (w_st w) _ _). exact (f_equal snd Hk).
      - intros k Hk. simpl in Hk. lia. }
    destruct r as [s'|sol']; [|exact G]. intros k Hk. exact (G k Hk).
  Qed.
End RealOdeint.
