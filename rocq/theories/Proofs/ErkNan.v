(** NaN right-hand sides (C30). *)
From Flocq Require Import IEEE754.BinarySingleNaN.
From Verif Require Import Model.Base Model.Scalar Model.LinAlg Model.Enums Model.Options Model.Coeffs Model.ErkCoeffs Model.Erk.
From Verif Require Import Spec.Observe Spec.ErkSpec Spec.Methods.
From Verif Require Import Proofs.SumsProofs Proofs.LoopProofs Proofs.OrderProofs Proofs.TablesGeneric Proofs.CoeffsProofs Proofs.ErkCoeffsProofs Proofs.ErkProofs Proofs.ErkRun Proofs.ErkGeneric Proofs.ErkTotal Proofs.ErkTimes.

Lemma emb_facts {T} `{Scalar T} m (sc : solver_coeffs T) : (slit 0 0 ==?. slit 0 0)%sc = true -> In m explicit_embedded -> erk_get_coefficients m = Ok sc ->
    length (sc_b2 sc) = length (sc_b sc) /\ dims_ok sc (length (sc_b sc)) = true /\ (0 < length (sc_b sc))%nat /\ erk_verify_solver_coeffs sc = true /\
    exists a b, sc_order sc = Some a /\ sc_order2 sc = Some b /\ (Z.min a b mod 2 ^ 64 = 2 \/ Z.min a b mod 2 ^ 64 = 4)%Z.
Proof.
  intros zero Hm Hg.
    destruct (erk_get_ok (T := T) m) as (sc' & Hg' & Ht & Hd). rewrite Hg in Hg'. injection Hg' as <-.
    assert (Hme : In m explicit_methods) by (clear - Hm; simpl in Hm; unfold explicit_methods; simpl; tauto).
    destruct (stages_dim m sc Hme Hd) as (L1 & _ & L3). assert (Hd' : dims_ok sc (length (sc_b sc)) = true) by (rewrite L1; exact Hd).
    assert (Hv : erk_verify_solver_coeffs sc = true) by (apply (erk_table_verify (T := T) zero) with (m := m); [exact Hme|exact Ht]).
    clear Hg Hd. clear - Hm Ht L3 Hd' Hv. simpl in Hm.
    destruct Hm as [<-|[<-|[<-|[<-|[]]]]]; injection Ht as <-; (split; [reflexivity|]); (split; [exact Hd'|]); (split; [exact L3|]); (split; [exact Hv|]);
      eexists _, _; (split; [reflexivity|]); (split; [reflexivity|]); vm_compute; auto.
Qed.

Section Nan.
  Variables (pw : f64 -> f64 -> f64).
  Hypothesis Hpw : pow_nan pw.
  Local Instance HS : Scalar f64 := F64Scalar pw.
  Context {E : Env f64} {LA : LinAlg f64} {St : Type}.
  Hypothesis HLA : nan_products LA.
  Local Notation W := (world f64 St).
  Variables (F : functor f64 St) (m : Z) (sc : solver_coeffs f64) (t0 t1 : f64) (y0 : list f64) (opts : erk_options f64) (oo : output_options) (dt0 : f64).
  Let n := length y0.
  Let ns := length (sc_b sc).
  Hypothesis HF : always_nan F n.
  Hypothesis Hn : (0 < n)%nat.
  Hypothesis Hm : In m explicit_embedded.
  Hypothesis Hg : erk_get_coefficients m = Ok sc.
  Hypothesis Had : eo_adaptive opts = true.
  Hypothesis Hoo : write_to_file oo = true -> output_stream oo <> None.
  Local Notation nans := (repeat nan n).

  Lemma zero64 : (slit 0 0 ==?. slit 0 0)%sc = true.
  Proof. vm_compute. reflexivity. Qed.
  Lemma sc_emb : length (sc_b2 sc) = ns /\ dims_ok sc ns = true /\ (0 < ns)%nat /\ erk_verify_solver_coeffs sc = true /\
    exists a b, sc_order sc = Some a /\ sc_order2 sc = Some b /\ (Z.min a b mod 2 ^ 64 = 2 \/ Z.min a b mod 2 ^ 64 = 4)%Z.
  Proof. exact (emb_facts m sc zero64 Hm Hg). Qed.

  Lemma ns_returns : returns_dim F n.
  Proof. intros t y s _. destruct (HF t y s) as [s' Hs]. exists s', nans. split; [exact Hs|apply repeat_length]. Qed.
  Lemma nan_stages t dt y Ks ev (w w' : W) Ks' ev' : mdim Ks n ns -> (sc_FSAL sc = true -> mcol Ks 0 = Ok nans) ->
    erk_stages_loop F sc t dt y Ks ev w = (w', Ok (Ks', ev')) -> mdim Ks' n ns /\ Forall (fun c => c = nans) (mcols Ks') /\ w_out w' = w_out w.
  Proof.
    intros Hd Hf Hl. destruct sc_emb as (_ & _ & Hns & _ & _).
    assert (Hst : (stage_iter_start sc <= length (sc_b sc))%nat) by (unfold stage_iter_start; fold ns; destruct (sc_FSAL sc); lia).
    pose proof (stages_loop_inv F sc false (fun _ => []) (fun _ _ _ => eq_refl) n _ _ _ _ _ _ _ _ _ Hd Hst Hl) as [SD SE SO SK SDn _].
    cbn [fst snd] in * . fold ns in SD, SDn. split; [exact SD|]. split; [|exact SO]. apply Forall_forall. intros c Hc. apply In_nth_error in Hc. destruct Hc as [i Hi].
    assert (Hin : (i < ns)%nat) by (destruct SD as (_ & SD & _); unfold ncols in SD; rewrite <- SD; apply nth_error_Some; congruence).
    assert (Hcol : mcol Ks' i = Ok c) by (unfold mcol; rewrite Hi; reflexivity).
    destruct (Nat.lt_ge_cases i (stage_iter_start sc)) as [Hlt|Hge].
    - unfold stage_iter_start in Hlt. destruct (sc_FSAL sc) eqn:Ef; [|lia]. assert (i = 0%nat) as -> by lia.
      rewrite SK in Hcol by (unfold stage_iter_start; rewrite Ef; lia). rewrite (Hf eq_refl) in Hcol. congruence.
    - destruct (SDn i ltac:(lia)) as (arg & ci & k & s1 & s2 & _ & _ & A3 & A4). rewrite Hcol in A3. injection A3 as ->.
      destruct (HF (t +. ci *. dt)%sc arg s1) as [s3 Hs]. rewrite Hs in A4. congruence.
  Qed.
  Lemma nan_mv Ks x : mdim Ks n ns -> Forall (fun c => c = nans) (mcols Ks) -> length x = ns -> mv Ks x = Ok nans.
  Proof.
    intros (D1 & D2 & D3) Hc Hx. destruct sc_emb as (_ & _ & Hns & _ & _). rewrite mv_ok by (unfold ncols; congruence). f_equal.
    apply (list_ext_nth nan); [rewrite D1, ErkProofs.vtab_length, repeat_length; reflexivity|]. rewrite ErkProofs.vtab_length. intros i Hi. rewrite SumsProofs.vtab_nth by exact Hi.
    rewrite HLA; [symmetry; apply nth_repeat| |unfold ncols; congruence|exact Hi|rewrite D1; exact Hc]. intros ->. simpl in Hx. lia.
  Qed.

  Lemma mul_nan k : (k *. nan)%sc = nan.
  Proof. simpl. destruct k; reflexivity. Qed.
  Lemma add_nan x : (x +. nan)%sc = nan.
  Proof. simpl. destruct x; reflexivity. Qed.
  Lemma vscale_nan k j : vscale k (repeat nan j) = repeat nan j.
  Proof. unfold vscale. induction j as [|j IH]; [reflexivity|]. cbn [repeat map]. rewrite IH, mul_nan. reflexivity. Qed.
  Lemma vadd_nan x : length x = n -> vadd x nans = Ok nans.
  Proof.
    intros Hx. rewrite vadd_ok by (rewrite repeat_length; exact Hx). f_equal. rewrite <- Hx. clear. unfold zipwith.
    induction x as [|a x IH]; [reflexivity|]. cbn [length repeat combine map fst snd]. rewrite IH, add_nan. reflexivity.
  Qed.
  Lemma zip_nan j : zipwith ssub (repeat nan j) (repeat nan j) = repeat nan j.
  Proof.
    unfold zipwith. induction j as [|j IH]; [reflexivity|]. cbn [length repeat combine map fst snd]. rewrite IH. reflexivity.
  Qed.
  Lemma vsub_nan : vsub nans nans = Ok nans.
  Proof. rewrite vsub_ok by reflexivity. f_equal. apply zip_nan. Qed.
  Lemma err_tot_nan y yn : length y = n -> length yn = n -> erk_err_tot opts y yn nans = Ok nan.
  Proof.
    intros Ly Lyn. unfold erk_err_tot. rewrite Ly.
    destruct (foldR_seq_total (fun i tot =>
               rbind (vget nans i) (fun erri => rbind (vget y i) (fun yi => rbind (vget yn i) (fun yni =>
               let sci := (eo_abs_tol opts +. eo_rel_tol opts *. smax (sabs yi) (sabs yni))%sc in
               let add := (erri /. sci)%sc in Ok (tot +. add *. add)%sc)))) (fun i tot => (0 < i)%nat -> tot = nan) 0 n (slit 0 0)) as (tot & Ht & Hp).
    - intros i a Hi _. rewrite (vget_ok nans i nan) by (rewrite repeat_length; lia). rewrite (vget_ok y i nan), (vget_ok yn i nan) by lia. cbn [rbind].
      eexists. split; [reflexivity|]. intros _. rewrite nth_repeat. cbv zeta.
      assert (Hdv : forall z, (nan /. z)%sc = nan) by reflexivity. rewrite Hdv, mul_nan, add_nan. reflexivity.
    - lia.
    - refine (eq_trans Ht _). f_equal. apply Hp. rewrite Nat.add_0_l. exact Hn.
  Qed.

  (** one attempt *)
  Definition nan_state (s : erk_state f64) : Prop := mdim (es_Ks s) n ns /\ length (es_y s) = n /\ (sc_FSAL sc = true -> mcol (es_Ks s) 0 = Ok nans).
  Lemma nan_abort mo s w : ndebug = false -> nan_state s -> limit_hit opts s = false ->
    exists w', erk_body F t1 opts sc oo mo s w = (w', Err EAbort) /\ w_out w' = w_out w.
  Proof.
    intros Hnd (Hd & Ly & Hf) Hl. destruct sc_emb as (Lb2 & Hdims & Hns & _ & _). unfold erk_body. fold (limit_hit opts s). rewrite Hl. fold (clip t1 (es_t s) (es_dt s)). set (h := clip t1 (es_t s) (es_dt s)).
    destruct (stages_total F y0 sc ns_returns Hns Hdims (es_t s) h (es_y s) (es_Ks s) (eo_fun_evals (es_sol s)) w Ly Hd) as (w1 & Ks & ev & Hst & _).
    destruct (nan_stages _ _ _ _ _ _ _ _ _ Hd Hf Hst) as (HdK & HK & Ho). rewrite (bind_run _ _ _ _ _ Hst).
    unfold bind, lift. rewrite (nan_mv _ _ HdK HK eq_refl), vscale_nan, vadd_nan by exact Ly. rewrite Had. unfold erk_control, bind, lift.
    rewrite (nan_mv _ _ HdK HK Lb2), vsub_nan, vscale_nan, err_tot_nan by (exact Ly || apply repeat_length). unfold assert_. rewrite Hnd. exists w1. split; [reflexivity|exact Ho].
  Qed.
  Lemma new_dt_nan mo d : (mo = 2 \/ mo = 4)%Z -> erk_new_dt opts mo nan d = nan_next (eo_max_dt opts) d.
  Proof.
    intros Hmo. unfold erk_new_dt, nan_next. cbv zeta.
    assert (Hp : spow (sZ 1 /. nan)%sc (sZ 1 /. (sZ 1 +. sZ mo))%sc = nan).
    { change (sZ 1 /. nan)%sc with nan. apply Hpw. destruct Hmo as [-> | ->]; vm_compute; reflexivity. }
    rewrite Hp. assert (Hs : smin (sZ 4) nan = sZ 4) by (unfold smin; replace (nan <?. sZ 4)%sc with false by (vm_compute; reflexivity); reflexivity).
    rewrite Hs. reflexivity.
  Qed.
  Lemma nan_accept mo s w w' s' w1 Ks ev dy yn err est rej nd : (mo = 2 \/ mo = 4)%Z -> nan_state s -> attempted F t1 opts sc oo mo s w w' s' w1 Ks ev dy yn err est rej nd ->
    rej = false /\ err = nan /\ yn = nans /\ nan_state s'.
  Proof.
    intros Hmo (Hd & Ly & Hf) A. destruct sc_emb as (Lb2 & Hdims & Hns & _ & _). destruct A as [Al As Ady Ayn Actl Aw An].
    destruct (nan_stages _ _ _ _ _ _ _ _ _ Hd Hf As) as (HdK & HK & Ho).
    rewrite (nan_mv _ _ HdK HK eq_refl) in Ady. injection Ady as <-. rewrite vscale_nan, vadd_nan in Ayn by exact Ly. injection Ayn as <-.
    rewrite Had in Actl. destruct Actl as (da & tot & C1 & C2 & C3 & C4 & C5 & C6 & C7 & C8).
    rewrite (nan_mv _ _ HdK HK Lb2) in C1. injection C1 as <-. 
    rewrite zip_nan, vscale_nan in C3. subst est. rewrite err_tot_nan in C4 by (exact Ly || apply repeat_length). injection C4 as <-. cbv zeta in C6.
    assert (He : err = nan) by (rewrite C6; reflexivity). subst err.
    assert (Hr : rej = false). { rewrite C7, He. reflexivity. } subst rej. rewrite Hr in An. rewrite He in * . split; [exact Hr|]. split; [reflexivity|]. split; [reflexivity|].
    destruct An as (Ks' & Hh & ->). unfold nan_state. cbn [es_Ks es_y]. unfold fsal_hook in Hh. destruct (sc_FSAL sc) eqn:Ef.
    - apply rbind_ok in Hh. destruct Hh as (k & Hk & Hs). split; [eapply mset_col_dim; eassumption|]. split; [apply repeat_length|]. intros _.
      rewrite (mset_col_same _ _ _ _ _ _ HdK Hs). f_equal. unfold mcol in Hk. destruct (nth_error (mcols Ks) (length (sc_b sc) - 1)) as [c|] eqn:Ec; [|discriminate].
      injection Hk as <-. rewrite Forall_forall in HK. apply HK. eapply nth_error_In, Ec.
    - injection Hh as <-. split; [exact HdK|]. split; [apply repeat_length|discriminate].
  Qed.

  Lemma init_nan (w w0 : W) Ks0 : (if sc_FSAL sc then exists k, in_world (f_fun F t0 y0) w = (w0, Ok k) /\ mset_col (junk_stages sc y0) 0 k = Ok Ks0
                             else w0 = w /\ Ks0 = junk_stages sc y0) ->
    nan_state (ErkState t0 y0 (clip t1 t0 dt0) 0 Ks0 (slit 0 0) (vzeros (length y0)) (init_sol t0 y0 (junk_stages sc y0) (stage_iter_start sc))) /\
    w_out w0 = w_out w.
  Proof.
    unfold nan_state. cbn [es_Ks es_y]. pose proof (mtab_dim n ns (fun _ _ : nat => junk (T := f64))) as Hj. fold (junk_stages sc y0) in Hj.
    destruct (sc_FSAL sc).
    - intros (k & Hk & Hs). unfold in_world in Hk. destruct (HF t0 y0 (w_st w)) as [s' He]. rewrite He in Hk. injection Hk as <- <-.
      split; [|reflexivity]. split; [eapply mset_col_dim; eassumption|]. split; [reflexivity|]. intros _. eapply mset_col_same; eassumption.
    - intros [-> ->]. split; [|reflexivity]. split; [exact Hj|]. split; [reflexivity|discriminate].
  Qed.

  Lemma eff_emb : eff_opts opts sc = opts.
  Proof.
    destruct sc_emb as (L & _ & Hp & _). unfold eff_opts. replace (length (sc_b2 sc) =? 0)%nat with false by (symmetry; apply Nat.eqb_neq; lia).
    rewrite andb_false_r. reflexivity.
  Qed.

  Lemma erk_nan_abort fuel (w : W) : ndebug = false -> (t0 <?. t1)%sc = true -> (clip t1 t0 dt0 >?. sZ 0)%sc = true ->
    exists w', erk_odeint (S fuel) F t0 t1 y0 opts oo m dt0 w = (w', Err EAbort) /\ w_out w' = w_out w.
  Proof.
    intros Hnd Hlt Hpos. destruct sc_emb as (Lb2 & Hdims & Hns & Hv & a & b & Ha & Hb & Hab).
    assert (exists w0 Ks0 ev, (if sc_FSAL sc then bind (in_world (f_fun F t0 y0)) (fun k => bind (lift (mset_col (junk_stages sc y0) 0 k)) (fun Ks' => ret (Ks', with_counts (init_sol t0 y0 (junk_stages sc y0) 0) 0 0 1)))
       else ret (junk_stages sc y0, init_sol t0 y0 (junk_stages sc y0) 0)) w = (w0, Ok (Ks0, ev)) /\
       ev = init_sol t0 y0 (junk_stages sc y0) (stage_iter_start sc) /\
       (if sc_FSAL sc then exists k, in_world (f_fun F t0 y0) w = (w0, Ok k) /\ mset_col (junk_stages sc y0) 0 k = Ok Ks0
                      else w0 = w /\ Ks0 = junk_stages sc y0)) as (w0 & Ks0 & ev & Hi & -> & Hf).
    { unfold stage_iter_start. destruct (sc_FSAL sc).
      - destruct (HF t0 y0 (w_st w)) as (s' & Hk).
        destruct (mset_col_ok (junk_stages sc y0) _ _ 0 nans (mtab_dim _ _ _) Hns (repeat_length _ _)) as (B & HB).
        assert (Hiw : in_world (f_fun F t0 y0) w = (World s' (w_out w), Ok nans)) by (unfold in_world; rewrite Hk; reflexivity).
        exists (World s' (w_out w)), B. eexists. rewrite (bind_run _ _ _ _ _ Hiw). unfold bind, lift. rewrite HB. unfold ret.
        split; [reflexivity|]. split; [reflexivity|]. eauto.
      - exists w, (junk_stages sc y0). eexists. unfold ret. split; [reflexivity|]. auto. }
    destruct (init_nan _ _ _ Hf) as [Hs Ho].
    match type of Hs with nan_state ?s => destruct (nan_abort (Z.min a b mod 2 ^ 64) s w0 Hnd Hs) as (w' & Hb' & Hw') end.
    { unfold limit_hit. cbn [es_step]. destruct (Z.leb_spec 0 (eo_max_steps opts)); [|reflexivity]. simpl. apply Z.ltb_ge. lia. }
    exists w'. split; [|congruence].
    unfold erk_odeint, erk_guts. unfold bind at 1. unfold lift at 1. rewrite Hg. unfold bind at 1. unfold assert_ at 1. rewrite Hv.
    fold (clip t1 t0 dt0). unfold bind at 1. unfold assert_ at 1. rewrite Hpos, Ha, Hb.
    fold (junk_stages sc y0). fold (init_sol t0 y0 (junk_stages sc y0) 0). fold (eff_opts opts sc). rewrite eff_emb.
    assert (Hnd' : forall v : W, (if ndebug then ret tt else ret tt) v = (v, Ok tt)) by (intros v; destruct ndebug; reflexivity). rewrite !Hnd'.
    unfold bind at 1. unfold lift at 1.
    rewrite (bind_run _ _ _ _ _ Hi). unfold bind at 1. cbn [while]. cbn [es_t]. rewrite Hlt. unfold bind at 1. rewrite Hb'. reflexivity.
  Qed.

  Lemma nan_grid_ok atts t d : Forall (fun a => at_ok a = true /\ at_err a = nan) atts -> (forall mo' (a : attempt f64), at_err a = nan -> (mo' = 2 \/ mo' = 4)%Z -> next_dt opts mo' a = nan_next (eo_max_dt opts) (at_dt a)) ->
    forall mo, (mo = 2 \/ mo = 4)%Z ->
    (forall k a, nth_error atts k = Some a -> at_t a = time_after t (firstn k atts)) ->
    (forall k a, nth_error atts k = Some a -> at_dt a = clip t1 (at_t a) (fold_left (fun _ a => next_dt opts mo a) (firstn k atts) d)) ->
    t :: map at_end atts = nan_grid (eo_max_dt opts) t1 (S (length atts)) t d.
  Proof.
    intros Ha Hn' mo Hmo. revert t d. induction atts as [|a l IH]; intros t d H1 H2; [reflexivity|].
    pose proof (Forall_inv Ha) as [Ok1 Er1]. pose proof (H1 0%nat a eq_refl) as Ht. pose proof (H2 0%nat a eq_refl) as Hd. simpl in Ht, Hd.
    change (nan_grid (eo_max_dt opts) t1 (S (length (a :: l))) t d) with (t :: nan_grid (eo_max_dt opts) t1 (S (length l)) (t +. clip t1 t d)%sc (nan_next (eo_max_dt opts) (clip t1 t d))).
    change (map at_end (a :: l)) with (at_end a :: map at_end l). f_equal.
    assert (He : at_end a = (t +. clip t1 t d)%sc) by (unfold at_end; rewrite Hd, Ht; reflexivity). rewrite He.
    assert (Hnx : next_dt opts mo a = nan_next (eo_max_dt opts) (clip t1 t d)) by (rewrite (Hn' mo a Er1 Hmo), Hd, Ht; reflexivity). rewrite <- Hnx.
    apply IH; [exact (Forall_inv_tail Ha)| |].
    - intros k b Hb. rewrite (H1 (S k) b Hb). unfold time_after. cbn [firstn fold_left]. rewrite Ok1, He. reflexivity.
    - intros k b Hb. exact (H2 (S k) b Hb).
  Qed.

  Lemma erk_nan_run fuel (w w' : W) sol : erk_odeint fuel F t0 t1 y0 opts oo m dt0 w = (w', Ok sol) ->
    eo_reject_err sol = 0%nat /\ Forall (fun y => y = nans) (tl (eo_y_vals sol)) /\ Forall (fun e => e = nan) (tl (eo_err sol)) /\
    eo_t_vals sol = nan_grid (eo_max_dt opts) t1 (length (eo_t_vals sol)) t0 (clip t1 t0 dt0).
  Proof.
    intros Hr. apply erk_odeint_inv in Hr. destruct Hr as (Hme & sc' & Hg' & Hd & Hr). rewrite Hg in Hg'. injection Hg' as <-.
    destruct (stages_dim m sc Hme Hd) as (L1 & L2 & L3). rewrite eff_emb in Hr.
    apply erk_guts_inv in Hr. destruct Hr as (_ & a & b & Oa & Ob & w0 & Ks0 & Hf & r & Hw & ->).
    destruct sc_emb as (_ & _ & _ & _ & a' & b' & Ha' & Hb' & Hab). rewrite Oa in Ha'. rewrite Ob in Hb'. injection Ha' as <-. injection Hb' as <-.
    set (mo := (Z.min a b mod 2 ^ 64)%Z) in * .
    pose proof (init_run F false (fun _ => []) (fun _ _ _ => eq_refl) t1 opts sc oo t0 y0 dt0 mo w w0 Ks0 L3 Hf) as I0.
    destruct (init_nan _ _ _ Hf) as [S0 _].
    assert (Fin : forall atts s1, output_ok t0 y0 sc atts s1 -> attempts_ok t0 t1 opts mo dt0 atts -> Forall (fun a => at_ok a = true /\ at_err a = nan /\ at_yn a = nans) atts ->
      eo_reject_err s1 = 0%nat /\ Forall (fun y => y = nans) (tl (eo_y_vals s1)) /\ Forall (fun e => e = nan) (tl (eo_err s1)) /\
      eo_t_vals s1 = nan_grid (eo_max_dt opts) t1 (length (eo_t_vals s1)) t0 (clip t1 t0 dt0)).
    { intros atts s1 [O1 O2 O3 O4 O5 _ _ _ _ _] [A1 A2 _ _ _ _] Hall.
      assert (Hacc : accepted atts = atts) by (clear - Hall; induction Hall as [|x l [Hx _] _ IH]; [reflexivity|]; unfold accepted in *; simpl; rewrite Hx, IH; reflexivity).
      pose proof (accepted_rejected atts) as Hcnt. rewrite Hacc in * . split; [rewrite O1; lia|]. rewrite O4, O5, O3. simpl tl.
      split; [clear - Hall; induction Hall as [|x l (_ & _ & Hx) _ IH]; constructor; auto|].
      split; [clear - Hall; induction Hall as [|x l (_ & Hx & _) _ IH]; constructor; auto|].
      cbn [length]. rewrite map_length. apply (nan_grid_ok atts t0 (clip t1 t0 dt0)) with (mo := mo).
      - eapply Forall_impl; [|exact Hall]. simpl. tauto.
      - intros mo' x Hx Hmo. unfold next_dt. rewrite Had, Hx. apply new_dt_nan, Hmo.
      - exact Hab.
      - exact A1.
      - exact A2. }
    assert (Hres : match r with inl s' => (exists atts, run_inv t0 t1 y0 opts sc oo mo dt0 (w_out w) false (fun _ : St => []) [] atts w' s' /\ nan_state s' /\ Forall (fun a => at_ok a = true /\ at_err a = nan /\ at_yn a = nans) atts) /\ (es_t s' <?. t1)%sc = false
       | inr s1 => eo_reject_err s1 = 0%nat /\ Forall (fun y => y = nans) (tl (eo_y_vals s1)) /\ Forall (fun e => e = nan) (tl (eo_err s1)) /\
      eo_t_vals s1 = nan_grid (eo_max_dt opts) t1 (length (eo_t_vals s1)) t0 (clip t1 t0 dt0) end).
    { refine (while_inv (fun s => (es_t s <?. t1)%sc) (erk_body F t1 opts sc oo mo)
       (fun w1 s => exists atts, run_inv t0 t1 y0 opts sc oo mo dt0 (w_out w) false (fun _ : St => []) [] atts w1 s /\ nan_state s /\ Forall (fun a => at_ok a = true /\ at_err a = nan /\ at_yn a = nans) atts)
       (fun w1 s1 => eo_reject_err s1 = 0%nat /\ Forall (fun y => y = nans) (tl (eo_y_vals s1)) /\ Forall (fun e => e = nan) (tl (eo_err s1)) /\
      eo_t_vals s1 = nan_grid (eo_max_dt opts) t1 (length (eo_t_vals s1)) t0 (clip t1 t0 dt0)) fuel _ _ _ _ _ _ _ Hw).
      - intros v s1 v' s1' (atts & I & Ns & Hall) Hlt Hb. apply erk_body_inl in Hb. destruct Hb as (w1 & Ks & ev & dy & yn & err & est & rej & nd & A).
        destruct (nan_accept mo _ _ _ _ _ _ _ _ _ _ _ _ _ Hab Ns A) as (Er & Ee & Ey & Ns'). eexists. split; [|split; [exact Ns'|]].
        + eapply (run_step F t0 t1 y0 opts sc oo mo dt0 _ false (fun _ : St => []) [] (fun _ _ _ => eq_refl)); [exact L3|congruence|exact I|exact Hlt|exact A].
        + apply Forall_app. split; [exact Hall|]. constructor; [|constructor]. cbn [at_ok at_err at_yn]. rewrite Er. auto.
      - intros v s1 v' s2 (atts & I & Ns & Hall) Hlt Hb. apply erk_body_inr in Hb. destruct Hb as (-> & Hl & ->).
        destruct I as [I1 I2 I3 I4 IO IA I6 I7 I8 I9 I10 I11 I12 I13 I14]. exact (Fin atts (es_sol s1) IO IA Hall).
      - exists []. split; [exact I0|]. split; [exact S0|constructor]. }
    destruct r as [s'|s1]; [|exact Hres]. destruct Hres as [(atts & I & _ & Hall) _]. destruct I as [I1 I2 I3 I4 IO IA I6 I7 I8 I9 I10 I11 I12 I13 I14].
    exact (Fin atts (es_sol s') IO IA Hall).
  Qed.
End Nan.
