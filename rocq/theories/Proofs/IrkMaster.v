(** Everything a completed run of the implicit integrator did, over the reals. *)
From Coq Require Import Reals Lra.
From Verif Require Import Model.Base Model.Scalar Model.LinAlg Model.Newton Model.Enums Model.Options Model.Coeffs Model.Irk Model.IrkCoeffs.
From Verif Require Import Spec.Sums Spec.Trees Spec.RkSpec Spec.Observe Spec.ErkSpec Spec.NewtonSpec Spec.IrkSpec Spec.IrkRunSpec Spec.Methods.
From Verif Require Import Proofs.LoopProofs Proofs.SumsProofs Proofs.OrderProofs Proofs.TablesGeneric Proofs.ErkProofs Proofs.ErkReal Proofs.ErkTimes Proofs.NewtonProofs Proofs.RVec
  Proofs.IrkProofs Proofs.IrkReal Proofs.IrkStages Proofs.IrkRun Proofs.IrkGeneric Proofs.IrkResults Proofs.IrkSteps Proofs.IrkTimes.
Local Open Scope R_scope.

Section Master.
  Context {LA : LinAlg R} {HP : ExactProducts LA} {HX : ExactSolve LA} {HLU : ExactLU LA} {HI : ExactInverse LA} {HE : Env R} {St : Type}.
  Local Notation W := (world R St).
  Variables (F : functor R St) (f : R -> list R -> list R).
  Hypothesis Hf : computes F f.
  Hypothesis HJ : jac_matrices F.
  Variables (fuel : nat) (t0 t1 : R) (y0 : list R) (opts : irk_options R) (oo : output_options) (m : Z) (dt : R).
  Hypothesis Hstart : ndebug = false \/ (t0 < t1 /\ 0 < dt).

  Lemma step_solved sc nopts mo dw d2w (Hst : irk_started t0 t1 opts m dt sc nopts mo dw d2w) X x :
    attempt_facts F t1 y0 opts sc nopts dw d2w X x -> ia_out x <> NewtonFailed ->
    io_adaptive opts = true /\ (ia_out x = Accepted <-> ia_err x <= 1) /\
    exists Y J d d2, solved_step F f sc (o_tol nopts) (o_dx_delta nopts) (io_abs_tol opts) (io_rel_tol opts) x Y J d d2.
  Proof.
    intros (s & _ & B1 & B2 & B3 & B4 & B5 & w & w1 & sr & Hss & Hm) Ho.
    destruct Hst as [S1 S2 S3 S4 S5 S6 S7 S8 S9 (Ai & S10 & S11 & S12)].
    destruct (dims_of sc _ S5) as (L1 & L2 & L3 & L4 & L5). rewrite <- L1 in L2, L3, L4, L5.
    assert (Hs : (0 < length (sc_b sc))%nat) by (rewrite L1; apply irk_stages_pos, S1).
    assert (HAw : mat_wf (sc_A sc)) by (unfold mat_wf; rewrite L3; exact L5).
    assert (Hd : sr_status sr = Newton.SUCCESS /\ exists w2 calls, estimated F opts sc dw d2w s (ia_dt x) sr w1 w2 (ia_yn x) (ia_est x) calls (ia_err x) /\
               (io_adaptive opts && (sltb (sZ 1) (ia_err x)))%bool = outcome_eqb (ia_out x) TooInaccurate).
    { destruct (ia_out x); [congruence|exact Hm|exact Hm]. }
    destruct Hd as (Hok & w2 & calls & [He (tot & Ht & _ & Eerr)] & Hacc).
    destruct (solve_R F (is_y s) (is_t s) (ia_dt x) sc L3 L4 HAw L2 Hs f Hf HJ false true _ _ _ _ _ _ _ _ _ Hss) as (K1 & K2 & K3 & K4 & K6 & K7 & K8 & K9).
    destruct (estimate_R F f Hf _ _ _ _ _ _ _ _ _ _ _ _ _ _ _ He (HJ _ _ _ K6) K1) as (E1 & E2 & E3 & E4 & e0 & E5 & e & E6 & E7).
    destruct K9 as [(_ & _ & _ & K9)|(K9 & _)]; [|rewrite K9 in Hok; discriminate].
    apply measure_R in Ht. rewrite <- Eerr in Ht. rewrite E3 in Ht.
    split; [exact E1|]. split.
    { rewrite E1 in Hacc. cbn [andb] in Hacc. change (sltb (Scalar := RScalar)) with Rltb in Hacc. simpl in Hacc. unfold Rlit in Hacc. simpl in Hacc.
      destruct (Rltb _ (ia_err x)) eqn:El.
      - apply Rltb_true in El. destruct (ia_out x); try discriminate. split; [discriminate|]. lra.
      - apply Rltb_false in El. destruct (ia_out x); try discriminate; try congruence. split; [intros _; lra|reflexivity]. }
    rewrite B1, B2 in * .
    exists (sr_Y sr), (sr_J sr), (ventry dw), (ventry d2w).
    rewrite <- L3 in Hs.
    destruct (inverse_weights (sc_A sc) Ai (sc_b sc) dw S10 S11 ltac:(lia)) as (_ & W1). destruct (inverse_weights (sc_A sc) Ai (sc_b2 sc) d2w S10 S12 ltac:(lia)) as (_ & W2). rewrite L3 in W1, W2.
    constructor; try assumption.
    - split; assumption.
    - cbv zeta. exists e0, e. split; [exact E5|]. split; [exact E6|]. destruct (is_alt s); [right|left]; exact E7.
  Qed.

  Theorem irk_run_R (w w' : W) sol : irk_odeint fuel F t0 t1 y0 opts oo m dt w = (w', Ok sol) ->
    exists sc nopts atts, irk_get_coefficients m = Ok sc /\ In m implicit_methods /\ dims_ok sc (irk_stages m) = true /\ has_orders m = true /\ length (sc_b2 sc) = length (sc_b sc) /\ invertible (sc_A sc) /\
      io_newton opts = Some nopts /\
      records t0 y0 oo atts sol /\ ichained t0 y0 atts /\
      Forall (fun x => t0 <= ia_t x < t1 /\ 0 < ia_dt x <= t1 - ia_t x /\ length (ia_y x) = length y0 /\
         (ia_out x <> NewtonFailed -> io_adaptive opts = true /\ (ia_out x = Accepted <-> ia_err x <= 1) /\
            exists Y J d d2, solved_step F f sc (o_tol nopts) (o_dx_delta nopts) (io_abs_tol opts) (io_rel_tol opts) x Y J d d2)) atts /\
      consecutive (fun a b => exists nd, ia_dt b = Rmin nd (t1 - ia_t b) /\ 0 < nd /\
         match ia_out a with
         | NewtonFailed => nd = 7 / 10 * ia_dt a
         | o => io_adaptive opts = true /\ nd <= 72 / 10 * ia_dt a /\ (0 < io_max_dt opts -> nd <= io_max_dt opts) /\ (o = TooInaccurate -> nd <= 9 / 10 * ia_dt a)
         end) atts /\
      (forall a, nth_error atts 0 = Some a -> ia_dt a = Rmin dt (t1 - t0)) /\
      (io_status sol = SUCCESS -> t1 <= itime_after t0 atts) /\ (io_status sol = ERROR_MAX_STEPS_EXCEEDED -> itime_after t0 atts < t1).
  Proof.
    intros Hr. destruct (finished_R F t0 t1 fuel y0 opts oo m dt Hstart _ _ _ Hr) as (sc & nopts & mo & dw & d2w & Hst & atts & O & A & Fl & _ & E).
    exists sc, nopts. 
    assert (HE2 : exists atts', atts' = (if (io_status sol =? GENERAL_ERROR)%Z then removelast atts else atts) /\ ended Accepted atts' = ended Accepted atts).
    { eexists. split; [reflexivity|]. destruct E as [(E1 & _)|[(E1 & _)|(E1 & _ & _ & _ & _ & _ & a' & a & -> & E2 & _)]]; rewrite E1; try reflexivity.
      rewrite Z.eqb_refl, removelast_last, ended_snoc, E2. cbn. rewrite app_nil_r. reflexivity. }
    destruct HE2 as (atts' & Ea & Eacc). rewrite <- Ea in O. exists atts. destruct A as [A1 A2 A3 A4 A5 A6 A7].
    split; [apply (st_sc _ _ _ _ _ _ _ _ _ _ Hst)|]. split; [apply (st_method _ _ _ _ _ _ _ _ _ _ Hst)|]. split; [apply (st_dims _ _ _ _ _ _ _ _ _ _ Hst)|]. split; [apply (st_orders _ _ _ _ _ _ _ _ _ _ Hst)|]. split; [apply (st_b2len _ _ _ _ _ _ _ _ _ _ Hst)|].
    split. { destruct Hst as [_ _ _ _ _ _ _ _ _ (Ai & S10 & _)]. apply inv_inv in S10. destruct S10 as (Sq & g & Eg & _). exists (mtab (nrows (sc_A sc)) (nrows (sc_A sc)) g). apply exact_inv; assumption. }
    split; [apply (st_nopts _ _ _ _ _ _ _ _ _ _ Hst)|].
    split. { destruct O as [O1 O2 O3 O4 O5 _ _ _ _ _ _]. unfold records, shown. unfold stored in * . rewrite Eacc in O1, O2, O4, O5. cbv zeta. auto. }
    split; [exact A1|].
    assert (Hall : Forall (fun x => t0 <= ia_t x < t1 /\ 0 < ia_dt x <= t1 - ia_t x /\ length (ia_y x) = length y0 /\
         (ia_out x <> NewtonFailed -> io_adaptive opts = true /\ (ia_out x = Accepted <-> ia_err x <= 1) /\
            exists Y J d d2, solved_step F f sc (o_tol nopts) (o_dx_delta nopts) (io_abs_tol opts) (io_rel_tol opts) x Y J d d2)) atts).
    { rewrite Forall_forall in * . intros x Hx. pose proof (A2 x Hx) as Hfx. pose proof (step_solved _ _ _ _ _ Hst _ _ Hfx) as Hsx.
      destruct Hfx as (s & (X1 & _ & _ & _ & X5) & B1 & B2 & B3 & B4 & B5 & _). rewrite B1, B2 in * . apply Rltb_true in B4.
      split; [lra|]. split; [|split; [exact B5|exact Hsx]]. rewrite B3, clip_R. split; [apply Rmin_glb_lt; lra|apply Rmin_r]. }
    split; [exact Hall|].
    split. { intros k a b Ha Hb. destruct (A6 k a b Ha Hb) as (s & s' & (X1 & X2 & X3 & X4 & X5) & (Z1 & Z2) & Z3). rewrite clip_R in Z3. exists (is_dt s'). split; [exact Z3|].
      rewrite Forall_forall in Hall. destruct (Hall a (nth_error_In _ _ Ha)) as (T1 & T2 & _ & T3).
      assert (Hmo : (0 <= mo)%Z) by (destruct (st_mo _ _ _ _ _ _ _ _ _ _ Hst) as (? & ? & _ & _ & ->); apply Z.mod_pos_bound; reflexivity).
      destruct (ia_out a) eqn:Eo.
      - assert (E7 : slit (T := R) 7 (-1) = 7 / 10) by (simpl; unfold Rlit, Z.pow_pos; simpl; lra). rewrite E7 in Z2. simpl in Z2. split; lra.
      - destruct (T3 ltac:(discriminate)) as (T4 & T5 & Y & J & d & d2 & T6). rewrite T4 in Z2. destruct Z2 as (iters & Hit & Hnd). pose proof (ss_err _ _ _ _ _ _ _ _ _ _ _ _ T6) as Te. fold mprec in Te.
        assert (0 < ia_err a) by (rewrite Te; eapply Rlt_le_trans; [apply mprec_pos|apply Rmax_l]).
        apply irk_new_dt_R in Hnd; try assumption; try lra. destruct Hnd as (N1 & N2 & N3 & N4). repeat split; try assumption. intros _. apply N4; [exact Hmo|].
        destruct (Rle_lt_dec (ia_err a) 1) as [Hle|Hgt]; [|exact Hgt]. apply T5 in Hle. discriminate.
      - destruct (T3 ltac:(discriminate)) as (T4 & T5 & Y & J & d & d2 & T6). rewrite T4 in Z2. destruct Z2 as (iters & Hit & Hnd). pose proof (ss_err _ _ _ _ _ _ _ _ _ _ _ _ T6) as Te. fold mprec in Te.
        assert (0 < ia_err a) by (rewrite Te; eapply Rlt_le_trans; [apply mprec_pos|apply Rmax_l]).
        apply irk_new_dt_R in Hnd; try assumption; try lra. destruct Hnd as (N1 & N2 & N3 & N4). repeat split; try assumption. discriminate. }
    split. { intros a Ha. rewrite (A7 a Ha), !clip_R. destruct (Rmin_l dt (t1 - t0)). rewrite Rmin_left; [reflexivity|apply Rmin_r]. rewrite Rmin_left; [reflexivity|apply Rmin_r]. }
    split; intros Es; destruct E as [(E1 & _ & _ & _ & E5)|[(E1 & _ & _ & _ & _ & _ & E5)|(E1 & _)]]; rewrite Es in E1; try discriminate.
    - apply Rltb_false in E5. lra.
    - apply Rltb_true in E5. exact E5.
  Qed.
End Master.
