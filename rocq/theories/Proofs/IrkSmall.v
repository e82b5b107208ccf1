(** Steps that are small enough are accepted. *)
From Coq Require Import Reals Lra.
From Verif Require Import Model.Base Model.Scalar Model.LinAlg Model.Newton Model.Enums Model.Options Model.Coeffs Model.Irk Model.IrkCoeffs.
From Verif Require Import Spec.Sums Spec.Trees Spec.RkSpec Spec.Observe Spec.ErkSpec Spec.NewtonSpec Spec.IrkSpec Spec.Methods Spec.IrkTotalSpec.
From Verif Require Import Proofs.LoopProofs Proofs.SumsProofs Proofs.OrderProofs Proofs.TablesGeneric Proofs.ErkProofs Proofs.ErkReal Proofs.ErkTimes Proofs.NewtonProofs Proofs.NewtonTotal Proofs.RVec
  Proofs.IrkProofs Proofs.IrkReal Proofs.IrkStages Proofs.IrkRun Proofs.IrkGeneric Proofs.IrkResults Proofs.IrkSteps Proofs.IrkTimes Proofs.IrkExact Proofs.IrkTotal Proofs.IrkStart Proofs.IrkBounded.
Local Open Scope R_scope.

Section Small.
  Context {LA : LinAlg R} {HP : ExactProducts LA} {HX : ExactSolve LA} {HLU : ExactLU LA} {HI : ExactInverse LA} {HE : Env R} {St : Type}.
  Local Notation W := (world R St).
  Hypothesis Hdeb : ndebug = false.
  Variables (F : functor R St) (f : R -> list R -> list R) (n : nat) (t0 t1 : R) (opts : irk_options R) (oo : output_options) (m : Z) (dt0 : R).
  Variables (sc : solver_coeffs R) (nopts : options R) (mo : Z) (dw d2w : list R) (hm : R).
  Hypothesis Hst : irk_started t0 t1 opts m dt0 sc nopts mo dw d2w.
  Hypothesis Hn : (0 < n)%nat.
  Hypothesis HF : returns_dim F n.
  Hypothesis HJ : returns_jac F n.
  Hypothesis HJm : jac_matrices F.
  Hypothesis Hf : computes F f.
  Hypothesis Hsol : solvable_up_to F n sc hm.
  Hypothesis Hcap : t1 - t0 <= hm \/ 0 < io_max_dt opts <= hm.
  Hypothesis Hoo : usable_output oo.
  Hypothesis Had : io_adaptive opts = true.
  Hypothesis Hrf : o_refresh_jac nopts <> 0%Z.
  Variables (P : list R -> Prop) (rho B K : R).
  Hypothesis Hrho : 0 < rho.
  Hypothesis HBK : bounded_near F n P rho B K.
  Hypothesis Hmx : (2 <= o_maxit nopts)%Z.
  Hypothesis Hatol : 0 < io_abs_tol opts.
  Hypothesis Hrtol : 0 <= io_rel_tol opts.
  Hypothesis Htol : 0 < o_tol nopts.

  Let s := length (sc_b sc).
  Let al := Rsum s (fun i => Rsum s (fun j => Rabs (mfun (sc_A sc) i j))).
  Let ga := Rabs (sc_gamma sc).
  Let We := Rsum s (fun i => Rabs (ventry dw i)) + Rsum s (fun i => Rabs (ventry d2w i)).
  Lemma al_pos : 0 <= al.
  Proof. apply Rsum_nonneg. intros i Hi. apply Rsum_abs_nonneg. Qed.
  Lemma al_rows i : (i < s)%nat -> Rsum s (fun j => Rabs (mfun (sc_A sc) i j)) <= al.
  Proof.
    intros Hi. set (g := fun k => if Nat.eq_dec i k then Rsum s (fun j => Rabs (mfun (sc_A sc) i j)) else 0).
    assert (E : Rsum s g = Rsum s (fun j => Rabs (mfun (sc_A sc) i j))).
    { rewrite (Rsum_single s i g Hi); unfold g; [destruct (Nat.eq_dec i i); [reflexivity|contradiction]|]. intros k Hk Nk. destruct (Nat.eq_dec i k); [congruence|reflexivity]. }
    rewrite <- E. apply Rsum_le. intros k Hk. unfold g. destruct (Nat.eq_dec i k) as [<-|]; [lra|apply Rsum_abs_nonneg].
  Qed.
  Lemma We_pos : 0 <= We.
  Proof. unfold We. pose proof (Rsum_abs_nonneg s (ventry dw)). pose proof (Rsum_abs_nonneg s (ventry d2w)). lra. Qed.
  Lemma f_bound (u : St) y : length y = n -> P y -> forall t x p, length x = n -> (forall q, (q < n)%nat -> Rabs (ventry x q - ventry y q) <= rho) -> (p < n)%nat -> Rabs (ventry (f t x) p) <= B.
  Proof.
    intros Ly HPy t x p Lx Hx Hp. destruct HBK as [HB _]. destruct (HF t x u Lx) as (u' & v & E & Lv). assert (Ev : v = f t x) by (apply (Hf t x u); rewrite E; reflexivity). rewrite <- Ev. exact (HB t y x u u' v p Ly HPy Lx Hx E Hp).
  Qed.

  Lemma small_solve y t h maxit f0 j0 (w w' : W) sr : length y = n -> P y -> 2 * (h * al * B) <= rho -> 0 < h <= hm -> (2 <= maxit)%Z ->
    h * al * (INR n * K) <= 1 / 2 -> INR (n * s) * (3 * (h * al * B) * (3 * (h * al * B))) < o_tol nopts * o_tol nopts ->
    newton_solve_stages F y t h sc false true maxit (o_refresh_jac nopts) (o_dx_delta nopts) (o_tol nopts) f0 j0 w = (w', Ok sr) ->
    sr_status sr = Newton.SUCCESS /\ sr_iters sr = 1%Z /\ length (sr_Y sr) = (s * n)%nat /\ jac_answers F t y (sr_J sr) /\ forall k, (k < n * s)%nat -> Rabs (ventry (sr_Y sr) k) <= 2 * (h * al * B).
  Proof.
    intros Ly HPy S0 Hh Hm2 S1 S2 Hr. destruct (started_dims t0 t1 opts m dt0 sc nopts mo dw d2w Hst) as (Ar & Ac & Aw & Lc & Hs & Lw & L2w). fold s in Ar, Ac, Lc, Hs, Lw, L2w.
    destruct (newton_solve_stages_inv F y t h sc false (fun _ => []) ltac:(discriminate) ltac:(discriminate) false true maxit (o_refresh_jac nopts) (o_dx_delta nopts) (o_tol nopts) Ac Lc Hs w w' f0 j0 sr Hr) as (v0 & V & D).
    destruct D as [[T1 T2 T3 T4] _ DY DJ Dr [JY Dj] Dst Df _]. rewrite Ly in T1. fold s in T1.
    destruct V as [|v1 V].
    { exfalso. destruct Dst as [(_ & D2 & _)|(_ & _ & D3 & _)]; [apply D2; reflexivity|cbn in D3; lia]. }
    assert (R0 : is_residual F y t h sc (v_x v0) (v_r v0)) by (rewrite Forall_forall in T2; apply T2; left; reflexivity).
    assert (R1 : is_residual F y t h sc (v_x v1) (v_r v1)) by (rewrite Forall_forall in T2; apply T2; right; left; reflexivity).
    destruct (move_newton F y t h sc Ar Ac Aw Lc Hs f Hf HJm false true v0 v1 ltac:(rewrite Ly; exact Hn) R0 (T3 0%nat v0 v1 eq_refl eq_refl)) as [J1 N1]. rewrite T1, Ly in N1. fold s in N1.
    pose proof (f_bound (w_st w) y Ly HPy) as HB.
    destruct (first_step n s _ _ f t h y B K rho Hn ltac:(lra) Ly ltac:(lra) HB al al_rows _ _ _ N1) as [Y1 D1].
    { intros M HM Mw. apply (proj1 Hsol t y (v_J v0) h M); assumption. }
    { intros p q Hp Hq. eapply (proj2 HBK); eassumption. }
    { exact S1. }
    { exact S0. }
    assert (B0 : 0 <= h * al * B). { apply Rmult_le_pos; [apply Rmult_le_pos; [lra|exact al_pos]|exact (B_nonneg n f y B rho Hn Ly ltac:(lra) HB)]. }
    assert (C1 : stage_converged (o_dx_delta nopts * o_dx_delta nopts) (o_tol nopts * o_tol nopts) v1 = true).
    { unfold stage_converged. apply orb_true_iff. left. change (sltb (Scalar := RScalar)) with Rltb. unfold Rltb. destruct (Rlt_dec _ _) as [|N]; [reflexivity|]. exfalso. apply N.
      rewrite (residual_norm F y t h sc Ar Ac Aw f Hf _ _ R1). rewrite Ly. eapply Rle_lt_trans; [|exact S2]. apply (defect_norm_bound n s _ _ f t h y); [lra|exact D1]. }
    destruct V as [|v2 V].
    - cbn [last] in * . destruct Dst as [(D2 & _ & D3 & _)|(_ & _ & _ & D4)].
      + split; [exact D2|]. split; [exact D3|]. rewrite DY. split; [|split; [exact (jo_ans _ _ _ _ _ _ _ _ _ Dj)|exact Y1]].
        destruct (residual_defect F y t h sc Ar Ac Aw f Hf _ _ R1) as (_ & L & _). rewrite Ly in L. exact L.
      + exfalso. inversion D4 as [|? ? D5 _]. simpl in D5. rewrite C1 in D5. discriminate.
    - exfalso. specialize (T4 0%nat v1 eq_refl ltac:(cbn; lia)). simpl in T4. rewrite C1 in T4. discriminate.
  Qed.

  Variable eps : R.
  Hypothesis Heps : 0 < eps.
  Definition small_step (h : R) : Prop := h * al * (INR n * K) <= 1 / 2 /\ INR (n * s) * (3 * (h * al * B) * (3 * (h * al * B))) < o_tol nopts * o_tol nopts /\
    ga * h * (INR n * K) <= 1 / 2 /\ h * (2 * (ga * h * B + We * (2 * (h * al * B)))) <= eps * io_abs_tol opts /\
    2 * (h * al * B) <= rho /\ h * (2 * (ga * h * B + We * (2 * (h * al * B)))) <= rho.

  Lemma small_estimate y t h alt Y J (w w' : W) yn est calls tot : length y = n -> P y -> 0 < h <= hm -> small_step h -> length Y = (s * n)%nat -> jac_answers F t y J ->
    (forall k, (k < n * s)%nat -> Rabs (ventry Y k) <= 2 * (h * al * B)) ->
    irk_estimate F opts sc dw d2w t h y Y J alt w = (w', Ok (yn, est, calls)) -> irk_err_tot opts y yn est = Ok tot -> measure_of tot (length est) <= Rmax mprec eps.
  Proof.
    intros Ly HPy Hh (S1 & S2 & S3 & S4 & S5 & S6) LY HJa HY He Ht.
    pose proof (f_bound (w_st w) y Ly HPy) as HB.
    destruct (estimate_R F f Hf opts sc dw d2w t h y Y J alt w w' yn est calls He (HJm _ _ _ HJa) ltac:(rewrite Ly; exact Hn)) as (_ & Lyn & Le & Eyn & e0 & E0 & e & Ee & Ea). rewrite Ly in Lyn, Le, E0, Ea. fold s in E0, Ea.
    rewrite (measure_R opts y yn est tot Ht), Le. apply Rle_max_compat_l.
    set (b := We * (2 * (h * al * B))) in * . set (diff := fun p => weighted n s (ventry d2w) Y p - weighted n s (ventry dw) Y p) in * .
    assert (Hdiff : forall p, (p < n)%nat -> Rabs (diff p) <= b).
    { intros p Hp. unfold diff, weighted. assert (D : forall d, Rabs (Rsum s (fun i => ventry d i * ventry Y (n * i + p))) <= Rsum s (fun i => Rabs (ventry d i)) * (2 * (h * al * B))) by (intros d; apply Rsum_weighted; intros i Hi; apply HY; nia).
      pose proof (D dw) as D1. pose proof (D d2w) as D2. match goal with |- Rabs (?x - ?z) <= _ => pose proof (Rabs_triang x (- z)) as Tr; rewrite Rabs_Ropp in Tr end. unfold b, We. unfold Rminus. lra. }
    assert (Hinv : invertible (one_minus n (sc_gamma sc * h) J)).
    { destruct HJa as (u & u' & Ej). destruct (HJ t y u Ly) as (u2 & J2 & Ej2 & Jr & Jc & Jw). rewrite Ej in Ej2. injection Ej2 as _ <-. apply (proj2 Hsol t y J h); try assumption. exists u, u'. exact Ej. }
    assert (HK : forall p q, (p < n)%nat -> (q < n)%nat -> Rabs (mentry J p q) <= K) by (intros p q Hp Hq; exact (proj2 HBK t y J p q Ly HPy HJa Hp Hq)).
    assert (Hfe : forall fy e', (forall p, (p < n)%nat -> Rabs (ventry fy p) <= B) -> estimate_of n (sc_gamma sc) h J fy diff e' -> forall p, (p < n)%nat -> Rabs (ventry e' p) <= 2 * (ga * h * B + b)).
    { intros fy e' Hfy Hes. apply (estimate_bound n h B K ltac:(lra) (sc_gamma sc) J fy diff e' b Hes Hinv HK S3 Hfy Hdiff). }
    assert (Hee : forall p, (p < n)%nat -> Rabs (ventry e p) <= 2 * (ga * h * B + b)).
    { destruct alt.
      - apply (Hfe (f t (vtab n (fun p => ventry y p + h * ventry e0 p)))); [|exact Ea]. intros p Hp. apply HB; [apply vtab_length| |exact Hp].
        intros q Hq. rewrite ventry_vt by exact Hq. replace (ventry y q + h * ventry e0 q - ventry y q) with (h * ventry e0 q) by ring. rewrite Rabs_mult, (Rabs_pos_eq h) by lra.
        eapply Rle_trans; [|exact S6]. apply Rmult_le_compat_l; [lra|]. apply (Hfe (f t y)); [|exact E0|exact Hq]. intros p' Hp'. apply HB; [exact Ly| |exact Hp']. intros q' _. rewrite Rminus_diag_eq, Rabs_R0 by reflexivity. lra.
      - subst e. apply (Hfe (f t y)); [|exact E0]. intros p Hp. apply HB; [exact Ly| |exact Hp]. intros q' _. rewrite Rminus_diag_eq, Rabs_R0 by reflexivity. lra. }
    apply rms_bound; try assumption; [lra|]. intros p Hp. rewrite Ee. change (map (Rmult h) e) with (vscale h e). rewrite ventry_vscale, Rabs_mult, (Rabs_pos_eq h) by lra.
    eapply Rle_trans; [|exact S4]. apply Rmult_le_compat_l; [lra|apply Hee, Hp].
  Qed.

  Lemma maxit_ge2 st : good_state n t0 t1 nopts hm st -> (2 <= is_maxit st)%Z.
  Proof. intros (_ & _ & (k & E & Hk & _) & _). rewrite E. nia. Qed.

  Lemma small_accepted st (w : W) : good_state n t0 t1 nopts hm st -> P (is_y st) -> is_t st < t1 -> limit_hit opts st = false -> no_overflow nopts st -> eps <= 1 ->
    let h := clip t1 (is_t st) (is_dt st) in small_step h ->
    exists w' st', irk_body F t1 opts sc oo nopts mo dw d2w st w = (w', Ok (inl st')) /\ is_t st' = is_t st + h /\ is_step st' = (is_step st + 1)%Z /\
      is_dts0 st' = is_dt st' /\ is_dts1 st' = is_dts0 st /\ mprec <= is_err0 st' <= Rmax mprec eps /\
      irk_new_dt opts mo (is_maxit st) 1 (is_err0 st') (is_err0 st) (is_dts0 st) (is_dts1 st) h = Ok (is_dt st').
  Proof.
    intros HG HPy Ht Hl HO He1 h Hsm. pose proof (maxit_ge2 st HG) as Hm2. pose proof HG as (Ly & (P1 & P2 & P3 & P4 & P5) & Hrel & Hcp).
    destruct (body_total Hdeb F n t0 t1 opts oo m dt0 sc nopts mo dw d2w hm Hst Hn HF HJ Hsol Hoo Had Hrf st w Ly P1 ltac:(split; assumption) Hcp (fun _ => HO)) as (w' & x & E & _).
    assert (Hh : 0 < h <= hm). { unfold h. split; [rewrite clip_R; apply Rmin_glb_lt; lra|]. apply (capped_clip t0); assumption. }
    assert (Hb := E). apply irk_body_inv in Hb. inversion Hb as [El|? ? ? Ead|w1 sr maxit relax El Ead cc d Hss Hst' Hm isk EQw EQs|w1 sr w2 yn est calls err nd El Ead cc d Hss Hst' Hem Hgt Hnd EQw EQs|
      w1 sr w2 yn est calls err nd w3 sol El cc d Hss Hst' Hem Hgt Hnd Hrec nd' EQw EQs]; clear Hb.
    - congruence.
    - congruence.
    - exfalso. apply Hst'. eapply (small_solve (is_y st) (is_t st) h); [exact Ly|exact HPy|apply Hsm|exact Hh|exact Hm2|apply Hsm|apply Hsm|exact Hss].
    - exfalso. destruct (small_solve (is_y st) (is_t st) h (is_maxit st) _ _ _ _ _ Ly HPy ltac:(apply Hsm) Hh Hm2 (proj1 Hsm) (proj1 (proj2 Hsm)) Hss) as (_ & _ & LY & HJa & HY).
      destruct Hem as [Em (tot & Et & _ & Eerr)]. pose proof (small_estimate (is_y st) (is_t st) h (is_alt st) _ _ _ _ _ _ _ _ Ly HPy Hh Hsm LY HJa HY Em Et) as Hle. rewrite <- Eerr in Hle.
      change (sltb (Scalar := RScalar)) with Rltb in Hgt. apply Rltb_true in Hgt. simpl in Hgt. unfold Rlit in Hgt. assert (mprec <= 1) by (unfold mprec; lra). assert (Rmax mprec eps <= 1) by (apply Rmax_lub; lra). lra.
    - destruct (small_solve (is_y st) (is_t st) h (is_maxit st) _ _ _ _ _ Ly HPy ltac:(apply Hsm) Hh Hm2 (proj1 Hsm) (proj1 (proj2 Hsm)) Hss) as (_ & It & LY & HJa & HY).
      destruct Hem as [Em (tot & Et & _ & Eerr)]. pose proof (small_estimate (is_y st) (is_t st) h (is_alt st) _ _ _ _ _ _ _ _ Ly HPy Hh Hsm LY HJa HY Em Et) as Hle. rewrite <- Eerr in Hle.
      rewrite <- EQs in E. eexists w', _. split; [exact E|]. cbn [is_t is_step is_dts0 is_dts1 is_err0 is_dt]. split; [reflexivity|]. split; [reflexivity|]. split; [reflexivity|]. split; [reflexivity|]. split.
      + split; [|exact Hle]. rewrite Eerr. rewrite (measure_R opts _ _ _ _ Et). apply Rmax_l.
      + unfold nd'. rewrite Had. rewrite It in Hnd. exact Hnd.
  Qed.

  Lemma attempt_moves st (w w' : W) st' : good_state n t0 t1 nopts hm st -> is_t st < t1 -> irk_body F t1 opts sc oo nopts mo dw d2w st w = (w', Ok (inl st')) ->
    let h := clip t1 (is_t st) (is_dt st) in
    (is_t st' = is_t st + h /\ is_step st' = (is_step st + 1)%Z) \/ (is_t st' = is_t st /\ is_step st' = is_step st /\ is_dt st' <= 9 / 10 * h).
  Proof.
    intros HG Ht Hb h. pose proof HG as (Ly & (P1 & P2 & P3 & P4 & P5) & Hrel & Hcp).
    assert (Hh : 0 < h). { unfold h. rewrite clip_R. apply Rmin_glb_lt; lra. }
    assert (Hmo : (0 <= mo)%Z). { destruct (st_mo _ _ _ _ _ _ _ _ _ _ Hst) as (a & b & _ & _ & ->). apply Z.mod_pos_bound. reflexivity. }
    apply irk_body_inv in Hb. inversion Hb as [El|? ? ? Ead|w1 sr maxit relax El Ead cc d Hss Hst' Hm isk EQw EQs|w1 sr w2 yn est calls err nd El Ead cc d Hss Hst' Hem Hgt Hnd EQw EQs|
      w1 sr w2 yn est calls err nd w3 sol El cc d Hss Hst' Hem Hgt Hnd Hrec nd' EQw EQs]; clear Hb; subst st'; cbn [is_t is_step is_dt].
    - right. split; [reflexivity|]. split; [reflexivity|]. fold h. unfold d. simpl. fold h. replace (Rlit 7 (-1)) with (7 / 10) by (unfold Rlit, Z.pow_pos; simpl; lra). lra.
    - right. split; [reflexivity|]. split; [reflexivity|]. pose proof (solve_iters F _ _ _ _ _ _ _ _ _ _ Hst _ _ _ _ _ _ _ _ _ _ _ _ Hss Hst') as Hit.
      change (sltb (Scalar := RScalar)) with Rltb in Hgt. apply Rltb_true in Hgt. simpl in Hgt. unfold Rlit in Hgt.
      apply irk_new_dt_R in Hnd; try assumption; [|lra]. apply Hnd; [exact Hmo|lra].
    - left. split; reflexivity.
  Qed.
  Lemma small_exists : exists hs, 0 < hs /\ forall h, 0 < h <= hs -> small_step h.
  Proof using Heps Hatol Htol Hrho.
    clear - Heps Hatol Htol Hrho.
    (* h * c <= e for h <= e / (|c| + 1) *)
    assert (G : forall c e, 0 < e -> exists hs, 0 < hs /\ forall h, 0 < h <= hs -> h * c <= e).
    { intros c e He. pose proof (Rabs_pos c) as Hc. exists (e / (Rabs c + 1)). split; [apply Rdiv_lt_0_compat; lra|]. intros h [h0 hh].
      apply Rle_trans with (h * (Rabs c + 1)); [apply Rmult_le_compat_l; [lra|]; pose proof (Rle_abs c); lra|].
      apply Rle_trans with (e / (Rabs c + 1) * (Rabs c + 1)); [apply Rmult_le_compat_r; lra|]. right. field. lra. }
    assert (T2 : 0 < o_tol nopts * o_tol nopts) by (apply Rmult_lt_0_compat; exact Htol).
    destruct (G (al * (INR n * K)) (1 / 2) ltac:(lra)) as (h1 & P1 & Q1).
    destruct (G (INR (n * s) * (3 * (al * B) * (3 * (al * B)))) (o_tol nopts * o_tol nopts / 2) ltac:(lra)) as (h2 & P2 & Q2).
    destruct (G (ga * (INR n * K)) (1 / 2) ltac:(lra)) as (h3 & P3 & Q3).
    destruct (G (2 * (ga * B + We * (2 * (al * B)))) (eps * io_abs_tol opts) (Rmult_lt_0_compat _ _ Heps Hatol)) as (h4 & P4 & Q4).
    destruct (G (2 * (al * B)) rho Hrho) as (h5 & P5 & Q5). destruct (G (2 * (ga * B + We * (2 * (al * B)))) rho Hrho) as (h6 & P6 & Q6).
    exists (Rmin 1 (Rmin h1 (Rmin h2 (Rmin h3 (Rmin h4 (Rmin h5 h6)))))). split; [repeat apply Rmin_glb_lt; lra|]. intros h [H0 Hh].
    assert (B1 : h <= 1) by (eapply Rle_trans; [exact Hh|apply Rmin_l]). pose proof (Rle_trans _ _ _ Hh (Rmin_r _ _)) as Hh1.
    assert (B2 : h <= h1) by (eapply Rle_trans; [exact Hh1|apply Rmin_l]). pose proof (Rle_trans _ _ _ Hh1 (Rmin_r _ _)) as Hh2.
    assert (B3 : h <= h2) by (eapply Rle_trans; [exact Hh2|apply Rmin_l]). pose proof (Rle_trans _ _ _ Hh2 (Rmin_r _ _)) as Hh3.
    assert (B4 : h <= h3) by (eapply Rle_trans; [exact Hh3|apply Rmin_l]). pose proof (Rle_trans _ _ _ Hh3 (Rmin_r _ _)) as Hh4.
    assert (B5 : h <= h4) by (eapply Rle_trans; [exact Hh4|apply Rmin_l]). pose proof (Rle_trans _ _ _ Hh4 (Rmin_r _ _)) as Hh5.
    assert (B6 : h <= h5) by (eapply Rle_trans; [exact Hh5|apply Rmin_l]). assert (B7 : h <= h6) by (eapply Rle_trans; [exact Hh5|apply Rmin_r]).
    specialize (Q1 h (conj H0 B2)). specialize (Q2 (h * h)). specialize (Q3 h (conj H0 B4)). specialize (Q4 (h * h)). specialize (Q5 h (conj H0 B6)). specialize (Q6 (h * h)).
    assert (Hh2' : 0 < h * h <= h2 /\ 0 < h * h <= h4 /\ 0 < h * h <= h6). { assert (0 < h * h) by (apply Rmult_lt_0_compat; exact H0). assert (h * h <= h * 1) by (apply Rmult_le_compat_l; lra). lra. }
    specialize (Q2 (proj1 Hh2')). specialize (Q4 (proj1 (proj2 Hh2'))). specialize (Q6 (proj2 (proj2 Hh2'))). unfold small_step. split; [lra|]. split.
    - apply Rle_lt_trans with (h * h * (INR (n * s) * (3 * (al * B) * (3 * (al * B))))); [right; ring|lra].
    - split; [lra|]. split; [eapply Rle_trans; [|exact Q4]; right; ring|]. split; [lra|]. eapply Rle_trans; [|exact Q6]; right; ring.
  Qed.
End Small.
