(** Reusing the last stage as the next first stage does not change the solution (C24). *)
From Coq Require Import Reals Lra.
From Verif Require Import Model.Base Model.Scalar Model.LinAlg Model.Enums Model.Options Model.Coeffs Model.ErkCoeffs Model.Erk.
From Verif Require Import Spec.Sums Spec.Trees Spec.RkSpec Spec.Observe Spec.ErkSpec Spec.ErkSame Spec.Methods.
From Verif Require Import Proofs.SumsProofs Proofs.LoopProofs Proofs.OrderProofs Proofs.TablesGeneric Proofs.CoeffsProofs Proofs.ErkCoeffsProofs Proofs.ErkProofs Proofs.ErkRun Proofs.ErkReal Proofs.ErkGeneric Proofs.ErkTimes Proofs.ErkTotal Proofs.ErkBounded.
Local Open Scope R_scope.

Lemma control_pure {E : Env R} {LA : LinAlg R} {St} opts sc mo dt Ks y yn dy : exists r, forall w : world R St, erk_control opts sc mo dt Ks y yn dy w = (w, r).
Proof.
  unfold erk_control, bind, lift, ret. destruct (mv Ks (sc_b2 sc)) as [da|e]; [|eexists; reflexivity].
  destruct (vsub da dy) as [d|e]; [|eexists; reflexivity]. destruct (erk_err_tot opts y yn (vscale dt d)) as [tot|e]; [|eexists; reflexivity].
  unfold assert_, ret, fail. destruct ndebug; [eexists; reflexivity|]. destruct (tot >=?. slit 0 0)%sc; eexists; reflexivity.
Qed.

Lemma bind_lift {S A B} (r : res A) (k : A -> M S B) w : bind (lift r) k w = match r with Ok a => k a w | Err e => (w, Err e) end.
Proof. reflexivity. Qed.
Lemma bind_eq {S A B} (p : M S A) (k : A -> M S B) w w1 r : p w = (w1, r) -> bind p k w = match r with Ok a => k a w1 | Err e => (w1, Err e) end.
Proof. intros H. unfold bind. rewrite H. destruct r; reflexivity. Qed.

Section Fsal.
  Context {E : Env R} {LA : LinAlg R} {X : ExactProducts LA} {St : Type}.
  Local Notation W := (world R St).
  Variables (F : functor R St) (f : R -> list R -> list R).
  Hypothesis HF : total_fun F f.
  Variables (m : Z) (sc : solver_coeffs R).
  Hypothesis Hm : In m explicit_methods.
  Hypothesis Hg : erk_get_coefficients (T := R) m = Ok sc.
  Variables (t0 t1 : R) (y0 : list R) (opts : erk_options R) (oo : output_options).
  Let n := length y0.
  Let ns := length (sc_b sc).
  Let sc' := without_reuse sc.
  Hypothesis Hp : preserves_dim f n.
  Hypothesis Hns : (0 < ns)%nat.
  Hypothesis Hdims : dims_ok sc ns = true.

  Lemma stages_same t dt y K1 K2 e1 e2 (w1 w2 : W) v1 v2 K1' e1' K2' e2' : mdim K1 n ns -> mdim K2 n ns -> length y = n ->
    (sc_FSAL sc = true -> mcol K1 0 = Ok (f t y)) ->
    erk_stages_loop F sc t dt y K1 e1 w1 = (v1, Ok (K1', e1')) -> erk_stages_loop F sc' t dt y K2 e2 w2 = (v2, Ok (K2', e2')) ->
    K1' = K2' /\ mdim K1' n ns /\ w_out v1 = w_out w1 /\ w_out v2 = w_out w2.
  Proof.
    intros Hd1 Hd2 Hy Hf H1 H2.
    assert (Hst : (stage_iter_start sc <= length (sc_b sc))%nat) by (unfold stage_iter_start; fold ns; destruct (sc_FSAL sc); lia).
    pose proof (stages_loop_inv F sc false (fun _ => []) (fun _ _ _ => eq_refl) n _ _ _ _ _ _ _ _ _ Hd1 Hst H1) as [SD SE SO SK SDn _].
    assert (Hst' : (stage_iter_start sc' <= length (sc_b sc'))%nat) by apply Nat.le_0_l.
    pose proof (stages_loop_inv F sc' false (fun _ => []) (fun _ _ _ => eq_refl) n _ _ _ _ _ _ _ _ _ Hd2 Hst' H2) as [TD TE TO TK TDn _].
    cbn [fst snd] in * . change (length (sc_b sc')) with ns in * . change (stage_iter_start sc') with 0%nat in * .
    split; [|auto].
    assert (Hcol : forall i, (i < ns)%nat -> mcol K1' i = mcol K2' i).
    { induction i as [i IH] using lt_wf_ind. intros Hi.
      destruct (TDn i ltac:(lia)) as (arg' & ci' & k' & s1' & s2' & A1' & A2' & A3' & A4').
      assert (Hk' : k' = f (t + ci' * dt) arg') by (refine (total_computes _ _ HF _ _ s1' _ _); exact (f_equal snd A4')).
      destruct (Nat.lt_ge_cases i (stage_iter_start sc)) as [Hlt|Hge].
      - unfold stage_iter_start in Hlt. destruct (sc_FSAL sc) eqn:Ef; [|lia]. assert (i = 0%nat) as -> by lia.
        rewrite SK by (unfold stage_iter_start; rewrite Ef; lia). rewrite (Hf eq_refl), A3', Hk'. f_equal.
        unfold erk_stage_arg in A1'. simpl in A1'. injection A1' as <-.
        destruct (sc_facts m sc Hm Hg) as (_ & _ & _ & Hrow & _). destruct (fsal_facts m sc Hm Hg Ef) as [_ Hz].
        assert (Hc0 : vfun (sc_c sc) 0 = 0) by (rewrite <- Hrow by exact Hns; apply Rsum_0; intros j Hj; apply Hz; exact Hj).
        apply (vget_inv _ _ _ 0) in A2'. destruct A2' as [_ ->]. change (nth 0 (sc_c sc') 0) with (vfun (sc_c sc) 0). rewrite Hc0. f_equal. ring.
      - destruct (SDn i ltac:(lia)) as (arg & ci & k & s1 & s2 & A1 & A2 & A3 & A4).
        assert (Hk : k = f (t + ci * dt) arg) by (refine (total_computes _ _ HF _ _ s1 _ _); exact (f_equal snd A4)).
        rewrite A3, A3', Hk, Hk'. change (sc_c sc') with (sc_c sc) in A2'. rewrite A2 in A2'. injection A2' as <-.
        assert (Ha : erk_stage_arg sc' y dt K2' i = erk_stage_arg sc y dt K1' i).
        { change (erk_stage_arg sc' y dt K2' i) with (erk_stage_arg sc y dt K2' i). apply stage_arg_ext. intros j Hj. symmetry. apply IH; lia. }
        rewrite Ha, A1 in A1'. injection A1' as <-. reflexivity. }
    destruct SD as (D1 & D2 & D3), TD as (D1' & D2' & D3'). destruct K1' as [r1 c1], K2' as [r2 c2]. simpl in * . unfold ncols in * . simpl in * . subst r1 r2. fold ns in D2. f_equal.
    apply (list_ext_nth []); [congruence|]. intros i Hi. specialize (Hcol i ltac:(lia)). unfold mcol in Hcol. simpl in Hcol.
    rewrite (nth_error_nth' c1 [] (n:=i) ltac:(lia)), (nth_error_nth' c2 [] (n:=i) ltac:(lia)) in Hcol. congruence.
  Qed.

  Definition sol_same := same_but_evals.
  Definition RR (a b : W * erk_state R) : Prop :=
    let '(w1, s1) := a in let '(w2, s2) := b in
    w_out w1 = w_out w2 /\ es_t s1 = es_t s2 /\ es_y s1 = es_y s2 /\ es_dt s1 = es_dt s2 /\ es_step s1 = es_step s2 /\ es_err s1 = es_err s2 /\
    es_err_est s1 = es_err_est s2 /\ same_but_evals (es_sol s1) (es_sol s2) /\ mdim (es_Ks s1) n ns /\ mdim (es_Ks s2) n ns /\
    length (es_y s1) = n /\ fsal_inv f sc s1.
  Definition QQ (a b : W * erk_output R) : Prop := w_out (fst a) = w_out (fst b) /\ same_but_evals (snd a) (snd b).

  Lemma fsal_body mo w1 s1 w2 s2 : RR (w1, s1) (w2, s2) ->
    match erk_body F t1 opts sc oo mo s1 w1, erk_body F t1 opts sc' oo mo s2 w2 with
    | (v1, Ok (inl x1)), (v2, Ok (inl x2)) => RR (v1, x1) (v2, x2)
    | (v1, Ok (inr x1)), (v2, Ok (inr x2)) => QQ (v1, x1) (v2, x2)
    | (v1, Err e1), (v2, Err e2) => e1 = e2 /\ w_out v1 = w_out v2
    | _, _ => False
    end.
  Proof.
    intros (Hw & Ht & Hy & Hd & Hst & He & Hee & Hs & HK1 & HK2 & Hl & Hf).
    destruct (erk_body F t1 opts sc oo mo s1 w1) as [v1 x1] eqn:Hb1.
    assert (Hinl : forall x, x1 = Ok (inl x) -> fsal_inv f sc x /\ mdim (es_Ks x) n ns /\ length (es_y x) = n).
    { intros x ->. pose proof Hb1 as Hb. apply erk_body_inl in Hb. destruct Hb as (w3 & Ks & ev & dy & yn & er & est & rej & nd & A).
      destruct (attempt_R F f (total_computes _ _ HF) m sc Hm Hg t1 y0 opts oo mo s1 w1 v1 x w3 Ks ev dy yn er est rej nd HK1 Hl Hf A) as (RK & HdK & Hf' & _).
      split; [exact Hf'|]. pose proof (ap_next _ _ _ _ _ _ _ _ _ _ _ _ _ _ _ _ _ _ _ A) as Hn. cbv zeta in Hn. destruct rej.
      - rewrite Hn. cbn [es_Ks es_y]. auto.
      - destruct Hn as (Ks' & Hh & Hn). rewrite Hn. cbn [es_Ks es_y]. split.
        + unfold fsal_hook in Hh. destruct (sc_FSAL sc); [|injection Hh as <-; exact HdK]. apply rbind_ok in Hh. destruct Hh as (k & _ & Hk). eapply mset_col_dim; eassumption.
        + destruct RK as (_ & _ & ->). apply vtab_length. }
    revert Hb1. unfold erk_body. rewrite <- Ht, <- Hy, <- Hd, <- Hst.
    destruct Hs as (S1 & S2 & S3 & S4 & S5 & S6 & S7 & S8 & S9 & S10).
    destruct ((0 <=? eo_max_steps opts)%Z && (eo_max_steps opts <? es_step s1)%Z).
    { intros [= <- <-]. unfold ret. split; [exact Hw|]. unfold same_but_evals, with_status, with_counts. simpl. rewrite S1, S2, S3, S4, S5, S7, S8, S9, S10. repeat split. }
    set (h := if (es_t s1 +. es_dt s1 >?. t1)%sc then (t1 -. es_t s1)%sc else es_dt s1).
    assert (HrF : returns_dim F n) by (eapply total_returns; eassumption).
    destruct (stages_total F y0 sc HrF Hns Hdims (es_t s1) h (es_y s1) (es_Ks s1) (eo_fun_evals (es_sol s1)) w1 Hl HK1) as (u1 & K1 & ev1 & L1 & _).
    destruct (stages_total F y0 sc' HrF Hns Hdims (es_t s1) h (es_y s1) (es_Ks s2) (eo_fun_evals (es_sol s2)) w2 Hl HK2) as (u2 & K2 & ev2 & L2 & _).
    destruct (stages_same _ _ _ _ _ _ _ _ _ _ _ _ _ _ _ HK1 HK2 Hl Hf L1 L2) as (<- & HdK & Ho1 & Ho2).
    rewrite (bind_run _ _ _ _ _ L1), (bind_run _ _ _ _ _ L2).
    change (sc_b sc') with (sc_b sc). rewrite (bind_lift _ _ u1), (bind_lift _ _ u2). destruct (mv K1 (sc_b sc)) as [dy|e]; [|intros [= <- <-]; split; [reflexivity|congruence]].
    rewrite (bind_lift _ _ u1), (bind_lift _ _ u2). destruct (vadd (es_y s1) (vscale h dy)) as [yn|e]; [|intros [= <- <-]; split; [reflexivity|congruence]].
    destruct (control_pure (St := St) opts sc mo h K1 (es_y s1) yn dy) as [r Hr].
    change (erk_control opts sc' mo h K1 (es_y s1) yn dy) with (erk_control (St := St) opts sc mo h K1 (es_y s1) yn dy).
    assert (Hc : exists r, (forall w : W, (if eo_adaptive opts then erk_control opts sc mo h K1 (es_y s1) yn dy else ret (es_err s1, es_err_est s1, false, h)) w = (w, r)) /\
        (forall w : W, (if eo_adaptive opts then erk_control opts sc mo h K1 (es_y s1) yn dy else ret (es_err s2, es_err_est s2, false, h)) w = (w, r))).
    { rewrite <- He, <- Hee. destruct (eo_adaptive opts); [exists r; auto|]. eexists. split; reflexivity. }
    destruct Hc as (r' & Hc1 & Hc2). rewrite (bind_eq _ _ u1 _ _ (Hc1 u1)), (bind_eq _ _ u2 _ _ (Hc2 u2)). destruct r' as [[[[er est] rej] nd]|e]; [|intros [= <- <-]; split; [reflexivity|congruence]].
    assert (Hwr : exists l, forall w : W, erk_write oo (es_t s1) yn w = (World (w_st w) (w_out w ++ l), match output_stream oo with Some _ => Ok tt | None => if write_to_file oo then Err EUB else Ok tt end)).
    { unfold erk_write. destruct (write_to_file oo).
      - destruct (output_stream oo); [exists [(es_t s1, yn)]; intros w; reflexivity|exists []; intros [? ?]; unfold fail; simpl; rewrite app_nil_r; reflexivity].
      - exists []. intros [? ?]. unfold ret. simpl. rewrite app_nil_r. destruct (output_stream oo); reflexivity. }
    destruct Hwr as [l Hwr]. rewrite (bind_eq _ _ u1 _ _ (Hwr u1)), (bind_eq _ _ u2 _ _ (Hwr u2)).
    assert (Hwo : w_out u1 ++ l = w_out u2 ++ l) by congruence.
    destruct (match output_stream oo with Some _ => Ok tt | None => if write_to_file oo then Err EUB else Ok tt end) as [u|e]; [|intros [= <- <-]; split; [reflexivity|exact Hwo]].
    destruct rej.
    - unfold ret. intros [= <- <-]. destruct (Hinl _ eq_refl) as (Hf' & Hd1' & Hl'). unfold RR. cbn [es_t es_y es_dt es_step es_Ks es_err es_err_est es_sol w_out].
      split; [exact Hwo|]. do 6 (split; [reflexivity|]). split; [|auto].
      unfold same_but_evals, with_counts. simpl. rewrite S1, S2, S3, S4, S5, S6, S7, S8, S9, S10. repeat split.
    - rewrite !bind_lift. unfold fsal_hook at 2. cbn [sc_FSAL sc' without_reuse].
      destruct (fsal_hook sc K1) as [K1'|e] eqn:Eh.
      + unfold ret. intros [= <- <-]. destruct (Hinl _ eq_refl) as (Hf' & Hd1' & Hl'). unfold RR. cbn [es_t es_y es_dt es_step es_Ks es_err es_err_est es_sol w_out].
        split; [exact Hwo|]. do 6 (split; [reflexivity|]). split; [|auto].
        unfold same_but_evals, erk_record, with_counts. simpl. rewrite S1, S2, S3, S4, S5, S6, S7, S8, S9, S10. repeat split.
      + exfalso. unfold fsal_hook in Eh. destruct (sc_FSAL sc); [|discriminate]. fold ns in Eh.
        destruct (mcol_ok K1 n ns (ns - 1) HdK ltac:(lia)) as [Hcl Hlen]. rewrite Hcl in Eh. cbn [rbind] in Eh.
        destruct (mset_col_ok K1 n ns 0 _ HdK Hns Hlen) as (B & HB). rewrite HB in Eh. discriminate.
  Qed.

  Lemma fsal_guts fuel dt w : 
    match erk_guts F t1 opts sc oo fuel t0 y0 dt w, erk_guts F t1 opts sc' oo fuel t0 y0 dt w with
    | (w1, Ok a), (w2, Ok b) => w_out w1 = w_out w2 /\ same_but_evals a b
    | (w1, Err e1), (w2, Err e2) => w_out w1 = w_out w2 /\ e1 = e2
    | _, _ => False
    end.
  Proof.
    unfold erk_guts. set (h := if (t0 +. dt >?. t1)%sc then (t1 -. t0)%sc else dt). assert (Hpure : forall b, assert_ ndebug b w = (w, if ndebug then Ok tt else if b then Ok tt else Err EAbort)) by (intros b; unfold assert_, ret, fail; destruct ndebug, b; reflexivity).
    rewrite !(bind_eq _ _ w _ _ (Hpure _)). destruct (if ndebug then Ok tt else if (h >?. sZ 0)%sc then Ok tt else Err EAbort) as [u|e]; [|split; reflexivity].
    change (sc_b sc') with (sc_b sc). change (sc_order sc') with (sc_order sc). change (sc_order2 sc') with (sc_order2 sc).
    rewrite !bind_lift.
    destruct (match sc_order sc with Some a => match sc_order2 sc with Some b => Ok (Z.min a b mod 2 ^ 64)%Z | None => Err EUB end | None => Err EUB end) as [mo0|e]; [|split; reflexivity].
    cbn [sc_FSAL sc' without_reuse].
    set (Kj := mtab (length y0) (length (sc_b sc)) (fun _ _ : nat => junk)).
    assert (HdJ : mdim Kj n ns) by apply mtab_dim.
    assert (Hi : exists v K ev, (if sc_FSAL sc then bind (in_world (f_fun F t0 y0)) (fun k => bind (lift (mset_col Kj 0 k)) (fun Ks' => ret (Ks', with_counts (ErkOutput SUCCESS [t0] [y0] [vectorise Kj] [vzeros (length y0)] [slit 0 0] None None 0 0 0) 0 0 1)))
       else ret (Kj, ErkOutput SUCCESS [t0] [y0] [vectorise Kj] [vzeros (length y0)] [slit 0 0] None None 0 0 0)) w = (v, Ok (K, ErkOutput SUCCESS [t0] [y0] [vectorise Kj] [vzeros (length y0)] [slit 0 0] None None 0 0 ev)) /\
       w_out v = w_out w /\ mdim K n ns /\ (sc_FSAL sc = true -> mcol K 0 = Ok (f t0 y0))).
    { destruct (sc_FSAL sc).
      - destruct (total_returns _ _ _ HF Hp t0 y0 (w_st w) eq_refl) as (s' & k & Hk & Lk).
        destruct (mset_col_ok Kj n ns 0 k HdJ Hns Lk) as (B & HB).
        assert (Hiw : in_world (f_fun F t0 y0) w = (World s' (w_out w), Ok k)) by (unfold in_world; rewrite Hk; reflexivity).
        exists (World s' (w_out w)), B, 1%nat. rewrite (bind_run _ _ _ _ _ Hiw). unfold bind, lift. rewrite HB. unfold ret. split; [reflexivity|].
        split; [reflexivity|]. split; [eapply mset_col_dim; eassumption|]. intros _. rewrite (mset_col_same _ _ _ _ _ _ HdJ HB). f_equal.
        apply (total_computes _ _ HF t0 y0 (w_st w)). rewrite Hk. reflexivity.
      - exists w, Kj, 0%nat. unfold ret. split; [reflexivity|]. split; [reflexivity|]. split; [exact HdJ|discriminate]. }
    destruct Hi as (v & K & ev & Hi & Ho & HdK & HfK). rewrite (bind_run _ _ _ _ _ Hi).
    match goal with |- context [bind (ret ?x) ?k w] => change (bind (ret x) k w) with (k x w) end. cbv beta iota.
    pose (QE := fun v1 v2 : W => w_out v1 = w_out v2).
    pose proof (while_rel (fun s => es_t s <?. t1)%sc (erk_body F t1 opts sc oo mo0) (fun s => es_t s <?. t1)%sc (erk_body F t1 opts sc' oo mo0) RR QQ QE) as Hwh.
    set (s1 := ErkState t0 y0 h 0 K (slit 0 0) (vzeros (length y0)) (ErkOutput SUCCESS [t0] [y0] [vectorise Kj] [vzeros (length y0)] [slit 0 0] None None 0 0 ev)).
    set (s2 := ErkState t0 y0 h 0 Kj (slit 0 0) (vzeros (length y0)) (ErkOutput SUCCESS [t0] [y0] [vectorise Kj] [vzeros (length y0)] [slit 0 0] None None 0 0 0)).
    assert (H0 : RR (v, s1) (w, s2)).
    { unfold RR. cbn [es_t es_y es_dt es_step es_Ks es_err es_err_est es_sol s1 s2]. split; [exact Ho|]. do 6 (split; [reflexivity|]). split; [repeat split|]. auto. }
    specialize (Hwh ltac:(intros ? ? ? ? (_ & -> & _); reflexivity) ltac:(intros ? ? ? ? Hrr _; apply fsal_body, Hrr) ltac:(intros ? ? ? ? (Hq & _); exact Hq) fuel v s1 w s2 H0).
    unfold bind.
    destruct (while _ (erk_body F t1 opts sc oo mo0) fuel s1 v) as [v1 [[x1|x1]|e1]], (while _ (erk_body F t1 opts sc' oo mo0) fuel s2 w) as [v2 [[x2|x2]|e2]]; try contradiction; unfold ret.
    - destruct Hwh as (Hw & _ & _ & _ & Hst & _ & _ & (S1 & S2 & S3 & S4 & S5 & S6 & S7 & S8 & S9 & S10) & _). split; [exact Hw|].
      unfold same_but_evals. simpl. rewrite S1, S2, S3, S4, S5, S6, S7, S8, Hst. repeat split.
    - exact Hwh.
    - destruct Hwh as [-> Hq]. split; [exact Hq|reflexivity].
  Qed.
End Fsal.
