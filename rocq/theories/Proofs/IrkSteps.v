(** Attempted steps of the implicit integrator over the reals. *)
From Coq Require Import Reals Lra.
From Verif Require Import Model.Base Model.Scalar Model.LinAlg Model.Newton Model.Enums Model.Options Model.Coeffs Model.Irk Model.IrkCoeffs.
From Verif Require Import Spec.Sums Spec.Trees Spec.RkSpec Spec.Observe Spec.ErkSpec Spec.NewtonSpec Spec.IrkSpec Spec.Methods.
From Verif Require Import Proofs.LoopProofs Proofs.SumsProofs Proofs.OrderProofs Proofs.TablesGeneric Proofs.ErkProofs Proofs.ErkReal Proofs.NewtonProofs Proofs.RVec
  Proofs.IrkProofs Proofs.IrkReal Proofs.IrkStages Proofs.IrkRun Proofs.IrkGeneric Proofs.IrkResults.
Local Open Scope R_scope.

Lemma skip_skip {T} a : forall b (l : list T), skipn b (skipn a l) = skipn (a + b) l.
Proof. induction a as [|a IH]; intros b l; [reflexivity|]. destruct l; [rewrite !skipn_nil; reflexivity|]. cbn [skipn Nat.add]. apply IH. Qed.
Lemma nth_chunks {T} n m : forall (v : list T) i, (i < m)%nat -> nth i (chunks n m v) [] = block n i v.
Proof.
  unfold block. induction m as [|m IH]; intros v i Hi; [lia|]. cbn [chunks]. destruct i as [|i]; cbn [nth].
  - rewrite Nat.mul_0_r. reflexivity.
  - rewrite IH by lia. f_equal. rewrite skip_skip. f_equal. lia.
Qed.
Lemma chunks_length {T} n m : forall v : list T, length (chunks n m v) = m.
Proof. induction m as [|m IH]; intros v; [reflexivity|]. cbn [chunks length]. rewrite IH. reflexivity. Qed.
Lemma reshape_entry Y n s p i : (p < n)%nat -> (i < s)%nat -> mentry (reshape Y n s) p i = ventry Y (n * i + p).
Proof. intros Hp Hi. unfold mentry, reshape. cbn [mcols]. rewrite nth_chunks by exact Hi. apply (ventry_block n i Y p Hp). Qed.

Lemma eye_minus N g B M : msub (eye N) (mscale g B) = Ok M -> mat_wf B ->
  nrows B = N /\ ncols B = N /\ nrows M = N /\ ncols M = N /\ forall i j, (i < N)%nat -> (j < N)%nat -> mentry M i j = delta i j - g * mentry B i j.
Proof.
  unfold msub. destruct (msame _ _) eqn:Em; [|discriminate]. intros [= <-] HB. unfold msame in Em. apply andb_true_iff in Em. rewrite !Nat.eqb_eq in Em. destruct Em as [Em1 Em2].
  assert (Er : nrows (eye (T := R) N) = N) by apply mtab_nrows. assert (Ec : ncols (eye (T := R) N) = N) by apply mtab_ncols.
  assert (Br : nrows B = N) by (rewrite Er in Em1; symmetry; exact Em1).
  assert (Bc : ncols B = N) by (rewrite Ec in Em2; unfold ncols in Em2 at 1; unfold mscale in Em2; cbn [mcols] in Em2; rewrite map_length in Em2; symmetry; exact Em2).
  split; [exact Br|]. split; [exact Bc|]. split; [exact Er|]. split.
  - unfold ncols, mzip. cbn [mcols]. rewrite map_length, combine_length. unfold mscale. cbn [mcols]. rewrite map_length. unfold ncols in Ec, Bc. lia.
  - intros i j Hi Hj. unfold mzip. unfold mentry at 1. cbn [mcols]. unfold ncols in Ec, Bc.
    rewrite (nth_indep _ [] (zipwith Rminus (fst (@nil R, @nil R)) (snd (@nil R, @nil R)))) by (rewrite map_length, combine_length; unfold mscale; cbn [mcols]; rewrite map_length; lia).
    rewrite (map_nth (fun q => zipwith Rminus (fst q) (snd q))). rewrite combine_nth by (unfold mscale; cbn [mcols]; rewrite map_length; lia). cbn [fst snd].
    fold (ventry (zipwith Rminus (nth j (mcols (eye N)) []) (nth j (mcols (mscale g B)) [])) i).
    unfold mscale. cbn [mcols]. rewrite (nth_indep (map (vscale g) (mcols B)) [] (vscale g [])) by (rewrite map_length; lia). rewrite (map_nth (vscale g)).
    rewrite ventry_zip; [|rewrite vscale_length, !wf_col; [congruence|exact HB|unfold ncols; lia|apply mtab_wf|unfold ncols; lia]|simpl; ring].
    rewrite ventry_vscale. fold (mentry (eye N) i j). unfold ventry at 1. fold (mentry (eye N) i j). rewrite mentry_eye by assumption. reflexivity.
Qed.

Section Steps.
  Context {LA : LinAlg R} {HP : ExactProducts LA} {HX : ExactSolve LA} {HLU : ExactLU LA} {HI : ExactInverse LA} {HE : Env R} {St : Type}.
  Variables (F : functor R St) (f : R -> list R -> list R).
  Hypothesis Hf : computes F f.
  Hypothesis HJ : jac_matrices F.

  Lemma inverse_weights A Ai b dw : inv A = Ok Ai -> mv (transpose 0 Ai) b = Ok dw -> length b = nrows A -> length dw = nrows A /\ stage_weights (nrows A) (mentry A) (ventry b) (ventry dw).
  Proof.
    unfold inv. destruct (nrows A =? ncols A)%nat eqn:Esq; [|discriminate]. apply Nat.eqb_eq in Esq. destruct (la_inv A) as [g|] eqn:Eg; [|discriminate]. intros [= <-] Hm Lb.
    destruct (exact_inv A g Esq Eg) as (_ & I1 & I2 & I3). set (Ai := mtab (nrows A) (nrows A) g) in * . apply mv_R in Hm. destruct Hm as (M1 & M2 & M3).
    assert (Er : nrows Ai = nrows A) by apply mtab_nrows. assert (Ec : ncols Ai = nrows A) by apply mtab_ncols.
    assert (Tr : nrows (transpose 0 Ai) = nrows A) by (unfold transpose; rewrite mtab_nrows; exact Ec). assert (Tc : ncols (transpose 0 Ai) = nrows A) by (unfold transpose; rewrite mtab_ncols; exact Er).
    rewrite Tr in M2, M3. rewrite Tc in M3. split; [exact M2|]. intros j Hj. set (N := nrows A) in * .
    rewrite (Rsum_ext N _ (fun i => Rsum N (fun k => ventry b k * (mentry Ai k i * mentry A i j)))).
    - rewrite Rsum_swap. rewrite (Rsum_ext N _ (fun k => delta j k * ventry b k)).
      + apply (delta_sum N j (ventry b) Hj).
      + intros k Hk. rewrite (Rsum_scal N (ventry b k) (fun i => mentry Ai k i * mentry A i j)). destruct (I3 k j Hk Hj) as [_ E]. rewrite E. unfold delta. destruct (Nat.eq_dec k j), (Nat.eq_dec j k); try ring; congruence.
    - intros i Hi. rewrite M3 by exact Hi. rewrite <- Rsum_scal. apply Rsum_ext. intros k Hk. rewrite mentry_transpose by lia. ring.
  Qed.

  Lemma weighted_mv Y n s d v : mv (reshape Y n s) d = Ok v -> length v = n /\ forall p, (p < n)%nat -> ventry v p = weighted n s (ventry d) Y p.
  Proof.
    intros Hm. apply mv_R in Hm. destruct Hm as (M1 & M2 & M3). assert (Ec : ncols (reshape Y n s) = s) by (unfold ncols, reshape; cbn [mcols]; apply chunks_length).
    change (nrows (reshape Y n s)) with n in M2, M3. rewrite Ec in M3. split; [exact M2|]. intros p Hp. rewrite M3 by exact Hp. unfold weighted. apply Rsum_ext. intros i Hi. rewrite reshape_entry by assumption. ring.
  Qed.

  Lemma estimate_R opts sc dw d2w t h y Y J alt w w' yn est calls : let n := length y in let s := length (sc_b sc) in let gamma := sc_gamma sc in
    irk_estimate F opts sc dw d2w t h y Y J alt w = (w', Ok (yn, est, calls)) -> mat_wf J -> (0 < n)%nat ->
    let diff p := weighted n s (ventry d2w) Y p - weighted n s (ventry dw) Y p in
    io_adaptive opts = true /\ length yn = n /\ length est = n /\ (forall p, (p < n)%nat -> ventry yn p = ventry y p + weighted n s (ventry dw) Y p) /\
    exists e0, estimate_of n gamma h J (f t y) diff e0 /\
      exists e, est = map (Rmult h) e /\ if alt then estimate_of n gamma h J (f t (vtab n (fun p => ventry y p + h * ventry e0 p))) diff e else e = e0.
  Proof.
    intros n s gamma Hr HJw Hn diff. assert (Hr0 := Hr). unfold irk_estimate in Hr. apply bind_ok in Hr. destruct Hr as (w1 & dy & Hdy & Hr). apply lift_ok in Hdy. destruct Hdy as [-> Hdy].
    destruct (io_adaptive opts) eqn:Ead.
    2: { exfalso. apply estimate_adaptive in Hr0; [congruence|exact Hn]. }
    apply bind_ok in Hr. destruct Hr as (w1 & da & Hda & Hr). apply lift_ok in Hda. destruct Hda as [-> Hda].
    apply bind_ok in Hr. destruct Hr as (w1 & f0 & Hf0 & Hr). apply in_world_ok in Hf0. destruct Hf0 as (s1 & Hf0 & ->).
    apply bind_ok in Hr. destruct Hr as (w1 & dya & Hdya & Hr). apply lift_ok in Hdya. destruct Hdya as [-> Hdya].
    apply bind_ok in Hr. destruct Hr as (w1 & yn' & Hyn & Hr). apply lift_ok in Hyn. destruct Hyn as [-> Hyn].
    apply bind_ok in Hr. destruct Hr as (w1 & yp & Hyp & Hr). apply lift_ok in Hyp. destruct Hyp as [-> Hyp].
    apply bind_ok in Hr. destruct Hr as (w1 & dd & Hdd & Hr). apply lift_ok in Hdd. destruct Hdd as [-> Hdd].
    apply bind_ok in Hr. destruct Hr as (w1 & stm & Hst & Hr). apply lift_ok in Hst. destruct Hst as [-> Hst].
    apply bind_ok in Hr. destruct Hr as (w1 & e0 & He & Hr). apply lift_ok in He. destruct He as [-> He].
    fold n s in Hdy, Hda, Hst. apply weighted_mv in Hdy. destruct Hdy as [Ldy Hdy]. apply weighted_mv in Hda. destruct Hda as [Lda Hda].
    assert (Ef0 : f0 = f t y) by (apply (Hf t y (w_st w)); rewrite Hf0; reflexivity).
    apply vadd_R in Hdya. destruct Hdya as (K1 & K2 & K3). apply vadd_R in Hyn. destruct Hyn as (K4 & K5 & K6). apply vsub_R in Hdd. destruct Hdd as (K7 & K8 & K9).
    destruct (eye_minus n _ J stm Hst HJw) as (D1 & D2 & D3 & D4 & D5). fold n in K4, K5.
    assert (Hsol : forall b e, solve stm b = Ok e -> (exists fy, (forall p, (p < n)%nat -> ventry b p = gamma * h * ventry fy p + diff p) /\ length b = n) ->
              forall fy, (forall p, (p < n)%nat -> ventry b p = gamma * h * ventry fy p + diff p) -> length b = n -> estimate_of n gamma h J fy diff e).
    { intros b e Hs _ fy Hb Lb. unfold solve in Hs. destruct (nrows stm =? length b)%nat; [|discriminate]. destruct (la_solve stm b) as [x|] eqn:Ex; [|discriminate]. injection Hs as <-.
      split; [rewrite vtab_length; exact D4|]. intros (M & M1 & M2 & M3 & M4) p Hp.
      assert (Hinv : invertible stm).
      { destruct M4 as (B & B1 & B2 & B3 & B4). exists B. split; [congruence|]. split; [congruence|]. split; [congruence|]. rewrite D3. rewrite M1 in B4. intros i j Hi Hj. specialize (B4 i j Hi Hj).
        assert (Hent : forall i j, (i < n)%nat -> (j < n)%nat -> mentry M i j = mentry stm i j) by (intros i' j' Hi' Hj'; rewrite M3, D5 by assumption; unfold gamma; simpl; ring).
        rewrite (Rsum_ext n (fun k => mentry stm i k * mentry B k j) (fun k => mentry M i k * mentry B k j)) by (intros; rewrite Hent by assumption; reflexivity).
        rewrite (Rsum_ext n (fun k => mentry B i k * mentry stm k j) (fun k => mentry B i k * mentry M k j)) by (intros; rewrite Hent by assumption; reflexivity). exact B4. }
      destruct (exact_solve stm b Hinv ltac:(lia)) as (x' & Ex' & (_ & _ & Sx)). rewrite Ex in Ex'. injection Ex' as <-. specialize (Sx p ltac:(lia)). rewrite D4 in * . rewrite <- Hb by exact Hp. rewrite <- Sx.
      rewrite (Rsum_ext n (fun j => mentry stm p j * ventry (vtab n x) j) (fun j => delta p j * ventry (vtab n x) j - gamma * h * (mentry J p j * ventry (vtab n x) j))).
      - rewrite Rsum_minus, Rsum_scal, delta_sum by exact Hp. reflexivity.
      - intros j Hj. rewrite D5 by assumption. unfold gamma. simpl. ring. }
    assert (Hb0 : forall p, (p < n)%nat -> ventry dd p = gamma * h * ventry (f t y) p + diff p).
    { intros p Hp. rewrite K9, K3, ventry_vscale, Hda, Hdy, Ef0 by exact Hp. unfold diff, gamma. simpl. ring. }
    assert (Ldd : length dd = n) by lia.
    assert (He0 : estimate_of n gamma h J (f t y) diff e0) by (apply (Hsol dd e0 He); eauto).
    split; [reflexivity|].
    assert (Hyn : length yn' = n /\ (forall p, (p < n)%nat -> ventry yn' p = ventry y p + weighted n s (ventry dw) Y p)).
    { split; [exact K5|]. intros p Hp. rewrite K6, Hdy by exact Hp. reflexivity. }
    destruct alt.
    - apply bind_ok in Hr. destruct Hr as (w1 & arg & Harg & Hr). apply lift_ok in Harg. destruct Harg as [-> Harg].
      apply bind_ok in Hr. destruct Hr as (w1 & f1 & Hf1 & Hr). apply in_world_ok in Hf1. destruct Hf1 as (s2 & Hf1 & ->). cbn [w_st w_out] in * .
      apply bind_ok in Hr. destruct Hr as (w1 & dyaa & Hdyaa & Hr). apply lift_ok in Hdyaa. destruct Hdyaa as [-> Hdyaa].
      apply bind_ok in Hr. destruct Hr as (w1 & ea & Hea & Hr). apply lift_ok in Hea. destruct Hea as [-> Hea].
      apply bind_ok in Hr. destruct Hr as (w1 & e2 & He2 & Hr). apply lift_ok in He2. destruct He2 as [-> He2].
      apply ret_ok in Hr. destruct Hr as [_ Hr]. injection Hr as <- <- <-.
      assert (Earg : arg = vtab n (fun p => ventry y p + h * ventry e0 p)).
      { apply vadd_R in Harg. destruct Harg as (A1 & A2 & A3). apply vec_ext; [rewrite vtab_length; exact A2|]. intros i Hi. rewrite A2 in Hi. fold n in Hi. rewrite ventry_vt, A3, ventry_vscale by exact Hi. reflexivity. }
      assert (Ef1 : f1 = f t arg) by (apply (Hf t arg s1); rewrite Hf1; reflexivity).
      apply vadd_R in Hdyaa. destruct Hdyaa as (B1 & B2 & B3). apply vsub_R in Hea. destruct Hea as (B4 & B5 & B6). rewrite Earg in Ef1.
      assert (He2' : estimate_of n gamma h J (f t (vtab n (fun p => ventry y p + h * ventry e0 p))) diff e2).
      { assert (Hb : forall p, (p < n)%nat -> ventry ea p = gamma * h * ventry (f t (vtab n (fun p => ventry y p + h * ventry e0 p))) p + diff p).
        { intros p Hp. rewrite B6, B3, ventry_vscale, Hda, Hdy, Ef1 by exact Hp. unfold diff, gamma. simpl. ring. }
        apply (Hsol ea e2 He2); [exists (f t (vtab n (fun p => ventry y p + h * ventry e0 p))); split; [exact Hb|lia]|exact Hb|lia]. }
      split; [apply Hyn|]. split; [rewrite vscale_length; apply He2'|]. split; [apply Hyn|]. exists e0. split; [exact He0|]. exists e2. split; [reflexivity|exact He2'].
    - apply ret_ok in Hr. destruct Hr as [_ Hr]. injection Hr as <- <- <-.
      split; [apply Hyn|]. split; [rewrite vscale_length; apply He0|]. split; [apply Hyn|]. exists e0. split; [exact He0|]. exists e0. split; reflexivity.
  Qed.

  Lemma count_up_R k : count_up (T := R) k = INR k.
  Proof.
    unfold count_up. induction k as [|k IH]; [simpl; unfold Rlit; simpl; lra|]. rewrite seq_S, fold_left_app, IH. cbn [fold_left]. rewrite S_INR. simpl. unfold Rlit. simpl. lra.
  Qed.
  Lemma measure_R opts y yn est tot : let n := length est in irk_err_tot opts y yn est = Ok tot ->
    measure_of tot n = Rmax mprec (rms_error n (io_abs_tol opts) (io_rel_tol opts) y yn est).
  Proof.
    intros n He.
    assert (Ht : tot = Rsum n (fun q => (ventry est q / (io_abs_tol opts + io_rel_tol opts * Rmax (Rabs (ventry y q)) (Rabs (ventry yn q)))) ^ 2)).
    { unfold irk_err_tot in He. fold n in He. revert He.
      refine (foldR_seq _ (fun k tot => tot = Rsum k (fun q => (ventry est q / (io_abs_tol opts + io_rel_tol opts * Rmax (Rabs (ventry y q)) (Rabs (ventry yn q)))) ^ 2)) 0 n _ _ _ _).
      - intros i t t' Hi -> Hb.
        destruct (vget est i) as [x|] eqn:E1; [|discriminate]. cbn [rbind] in Hb. destruct (vget y i) as [x2|] eqn:E2; [|discriminate]. cbn [rbind] in Hb. destruct (vget yn i) as [x3|] eqn:E3; [|discriminate]. cbn [rbind] in Hb.
        apply (vget_inv _ _ _ 0) in E1, E2, E3. destruct E1 as [_ ->]. destruct E2 as [_ ->]. destruct E3 as [_ ->].
        injection Hb as <-. rewrite smax_R. cbn [Rsum]. simpl. unfold ventry. ring.
      - simpl. unfold Rlit. simpl. lra. }
    unfold measure_of, rms_error. rewrite mprec_eq, count_up_R, Ht. simpl.
    match goal with |- context [Rltb ?a ?b] => destruct (Rltb a b) eqn:E end.
    - apply Rltb_true in E. rewrite Rmax_left by lra. reflexivity.
    - apply Rltb_false in E. rewrite Rmax_right by lra. reflexivity.
  Qed.
End Steps.
