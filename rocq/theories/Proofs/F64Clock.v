(** The clock of a fixed-step run in doubles reaches t1 when the step is not lost in rounding. *)
From Coq Require Import Reals Lra.
From Flocq Require Import Core Plus_error Relative IEEE754.BinarySingleNaN.
From Verif Require Import Model.Base Model.Scalar Model.Options Model.Coeffs Model.Erk.
From Verif Require Import Proofs.ErkProofs Proofs.F64Steps Proofs.ErkClock.
Local Open Scope R_scope.

Lemma nearest64 (x : R) (g : f64) : Rabs (rnd64 x - x) <= Rabs (B2R g - x).
Proof. apply (round_N_pt radix2 (SpecFloat.fexp 53 1024) (fun x => negb (Z.even x)) x). apply generic_format_B2R. Qed.
Lemma plus_value (x y : f64) : is_finite x = true -> is_finite y = true -> is_finite (Bplus mode_NE x y) = true ->
  B2R (Bplus mode_NE x y) = rnd64 (B2R x + B2R y).
Proof.
  intros Fx Fy Fs. pose proof (Bplus_correct 53 1024 _ _ mode_NE x y Fx Fy) as C. fold (rnd64 (B2R x + B2R y)) in C.
  destruct (Rlt_bool _ _); [apply C|]. destruct C as [C _]. exfalso. revert C Fs. destruct (Bplus mode_NE x y), (Bsign x); simpl; discriminate.
Qed.
Lemma sum_error_round (x y : f64) : exists eps, Rabs eps <= u64 /\ B2R x + B2R y = rnd64 (B2R x + B2R y) * (1 + eps).
Proof.
  destruct (FLT_plus_error_N_round_ex radix2 (-1074) 53 (fun x => negb (Z.even x)) (B2R x) (B2R y)
    (generic_format_B2R 53 1024 x) (generic_format_B2R 53 1024 y)) as (eps & He & Hr).
  exists eps. split; [|exact Hr]. eapply Rle_trans; [exact He|]. unfold u_ro, u64. right. rewrite <- (bpow_plus radix2 (-1)). reflexivity.
Qed.
Lemma multiple64 (x : f64) : exists k : Z, B2R x = IZR k * bpow radix2 (-1074).
Proof.
  pose proof (generic_format_FIX_FLT radix2 (-1074) 53 (B2R x) (generic_format_B2R 53 1024 x)) as H. apply FIX_format_generic in H.
  destruct H as [[f e] H1 H2]. simpl in H2. subst e. exists f. exact H1.
Qed.
Lemma no_gap (x y : f64) : B2R y - B2R x <= bpow radix2 (-1075) -> B2R y <= B2R x.
Proof.
  destruct (multiple64 x) as [kx ->], (multiple64 y) as [ky ->]. intros H. pose proof (bpow_gt_0 radix2 (-1074)) as P.
  apply Rmult_le_compat_r; [lra|]. apply IZR_le. apply Z.lt_succ_r. apply lt_IZR. rewrite <- Z.add_1_r, plus_IZR.
  apply (Rmult_lt_reg_r (bpow radix2 (-1074))); [exact P|].
  assert (bpow radix2 (-1075) < bpow radix2 (-1074)) by (apply bpow_lt; lia). lra.
Qed.

Section Clock.
  Context (pw : f64 -> f64 -> f64).
  Let HS := F64Scalar pw.
  Existing Instance HS.
  Variables (t0 t1 : f64).
  Hypothesis F0 : is_finite t0 = true.
  Hypothesis F1 : is_finite t1 = true.
  Hypothesis B0 : Rabs (B2R t0) <= big.
  Hypothesis B1 : Rabs (B2R t1) <= big.

  Lemma stops_at (t : f64) : is_finite t = true -> B2R t1 <= B2R t -> Bltb t t1 = false.
  Proof. intros Ft H. rewrite Bltb_correct by assumption. apply Rlt_bool_false, H. Qed.
  Lemma stops_more N : forall k (t d : f64), clock_stops t1 N t d -> clock_stops t1 (N + k) t d.
  Proof. induction N as [|N IH]; intros k t d [H|H]; [destruct k; left; exact H|contradiction|left; exact H|right; apply IH, H]. Qed.

  Lemma stops_now N (t d : f64) : Bltb t t1 = false -> clock_stops t1 N t d.
  Proof. intros H. destruct N; left; exact H. Qed.
  Lemma stops_next N (t d a : f64) : clip t1 t d = a -> clock_stops t1 N (Bplus mode_NE t a) a -> clock_stops t1 (S N) t d.
  Proof. intros <- H. right. exact H. Qed.
  Lemma clip_cut (t d : f64) : Bltb t1 (Bplus mode_NE t d) = true -> clip t1 t d = Bminus mode_NE t1 t.
  Proof. intros H. unfold clip. change (t +. d >?. t1)%sc with (Bltb t1 (Bplus mode_NE t d)). rewrite H. reflexivity. Qed.
  Lemma clip_full (t d : f64) : Bltb t1 (Bplus mode_NE t d) = false -> clip t1 t d = d.
  Proof. intros H. unfold clip. change (t +. d >?. t1)%sc with (Bltb t1 (Bplus mode_NE t d)). rewrite H. reflexivity. Qed.

  (** a step that was cut to end at t1 leaves at most 2^-52 of the distance *)
  Lemma clipped_step (t : f64) : is_finite t = true -> B2R t0 <= B2R t < B2R t1 ->
    let c := Bminus mode_NE t1 t in let t' := Bplus mode_NE t c in
    is_finite c = true /\ 0 <= B2R c /\ is_finite t' = true /\ B2R t <= B2R t' /\
    B2R t1 - B2R t' <= bpow radix2 (-52) * (B2R t1 - B2R t) /\ B2R t1 <= B2R t' + B2R c.
  Proof.
    intros Ft Ht. cbv zeta. pose proof big_pos as Pb. pose proof (bpow_gt_0 radix2 (-53)) as Pu. fold u64 in Pu.
    assert (Hu : u64 <= / 4). { unfold u64. replace (/ 4) with (bpow radix2 (-2)) by (simpl; lra). apply bpow_le. lia. }
    assert (Hu2 : bpow radix2 (-52) = 2 * u64). { unfold u64. change (-52)%Z with (1 + -53)%Z. rewrite bpow_plus. reflexivity. }
    apply Rabs_def2' in B0. apply Rabs_def2' in B1. destruct B0 as [B0a B0b], B1 as [B1a B1b].
    destruct (minus_fin t1 t F1 Ft ltac:(apply Rabs_le; lra)) as [Fa Va].
    destruct (diff_error t1 t) as (e1 & He1 & Hr1). rewrite Hr1 in Va. apply Rabs_def2' in He1.
    set (c := Bminus mode_NE t1 t) in * . set (g := B2R t1 - B2R t) in * .
    assert (Hg : 0 < g) by (unfold g; lra).
    assert (He : - (u64 * g) <= g * e1 <= u64 * g) by (split; [replace (- (u64 * g)) with (g * - u64) by ring|rewrite (Rmult_comm u64)]; apply Rmult_le_compat_l; lra).
    assert (Hug : u64 * g <= / 4 * g) by (apply Rmult_le_compat_r; lra).
    assert (Vc : B2R c = g + g * e1) by (rewrite Va; ring).
    assert (Hs : B2R t + B2R c = B2R t1 + g * e1) by (rewrite Vc; unfold g; ring).
    destruct (plus_fin t c Ft Fa ltac:(rewrite Hs; apply Rabs_le; unfold g in *; lra)) as [Fp Vp].
    assert (Hn : Rabs (rnd64 (B2R t + B2R c) - (B2R t + B2R c)) <= u64 * g).
    { eapply Rle_trans; [apply (nearest64 _ t1)|]. rewrite Hs. apply Rabs_le. lra. }
    apply Rabs_def2' in Hn. rewrite <- Vp in Hn. split; [exact Fa|]. split; [lra|]. split; [exact Fp|].
    split; [rewrite Vp; rewrite <- (rnd64_id t) at 1; apply rnd64_mono; lra|]. rewrite Hu2. unfold g in * . lra.
  Qed.

  (** after a cut *)
  Lemma clock_tail k : forall t d : f64, is_finite t = true -> is_finite d = true -> 0 <= B2R d -> B2R t0 <= B2R t ->
    B2R t1 <= B2R t + B2R d -> B2R t1 - B2R t <= bpow radix2 (52 * Z.of_nat k - 1075) -> clock_stops t1 k t d.
  Proof.
    induction k as [|k IH]; intros t d Ft Fd Pd Ht Hr Hg.
    - apply stops_now, stops_at; [exact Ft|]. apply no_gap. exact Hg.
    - destruct (Bltb t t1) eqn:El; [|apply stops_now, El].
      pose proof (step64 t0 t1 F1 B0 B1 t d Ft Ht El (nonneg_finite d Fd Pd)) as S64. cbv zeta in S64.
      rewrite Bltb_correct in El by assumption. destruct (Rlt_bool_spec (B2R t) (B2R t1)) as [Hl|]; [clear El|discriminate].
      destruct (Bltb t1 (Bplus mode_NE t d)) eqn:Ec.
      + apply (stops_next _ _ _ _ (clip_cut t d Ec)).
        destruct (clipped_step t Ft (conj Ht Hl)) as (C1 & C2 & C3 & C4 & C5 & C6). apply IH; try assumption; [lra|].
        eapply Rle_trans; [exact C5|]. replace (52 * Z.of_nat k - 1075)%Z with (-52 + (52 * Z.of_nat (S k) - 1075))%Z by lia.
        rewrite bpow_plus. apply Rmult_le_compat_l; [apply bpow_ge_0|exact Hg].
      + destruct S64 as (_ & _ & S3 & _). apply (stops_next _ _ _ _ (clip_full t d Ec)). apply stops_now.
        apply stops_at; [exact S3|]. rewrite (plus_value t d Ft Fd S3). rewrite <- (rnd64_id t1). apply rnd64_mono. exact Hr.
  Qed.

  Variable d : f64.
  Hypothesis Fd : is_finite d = true.
  Hypothesis Pd : 0 < B2R d.
  Hypothesis Hd : bpow radix2 (-52) * Rmax (Rabs (B2R t0)) (Rabs (B2R t1)) <= B2R d.

  Lemma cut_stops (t : f64) : is_finite t = true -> B2R t0 <= B2R t < B2R t1 ->
    clock_stops t1 40 (Bplus mode_NE t (Bminus mode_NE t1 t)) (Bminus mode_NE t1 t).
  Proof.
    intros Ft Ht. destruct (clipped_step t Ft Ht) as (C1 & C2 & C3 & C4 & C5 & C6). apply clock_tail; try assumption; [lra|].
    eapply Rle_trans; [exact C5|]. apply Rle_trans with (bpow radix2 (-52) * bpow radix2 1023).
    - apply Rmult_le_compat_l; [apply bpow_ge_0|]. rewrite big_2. apply Rabs_def2' in B0. apply Rabs_def2' in B1. lra.
    - rewrite <- bpow_plus. apply bpow_le. lia.
  Qed.
  Lemma clock64 N : forall t : f64, is_finite t = true -> B2R t0 <= B2R t -> B2R t1 - B2R t <= INR N * (B2R d / 2) -> clock_stops t1 (N + 41) t d.
  Proof.
    induction N as [|N IH]; intros t Ft Ht HN.
    - apply stops_now, stops_at; [exact Ft|]. simpl in HN. lra.
    - rewrite Nat.add_succ_l. destruct (Bltb t t1) eqn:El; [|apply stops_now, El].
      pose proof (step64 t0 t1 F1 B0 B1 t d Ft Ht El (nonneg_finite d Fd (Rlt_le _ _ Pd))) as S64. cbv zeta in S64.
      rewrite Bltb_correct in El by assumption. destruct (Rlt_bool_spec (B2R t) (B2R t1)) as [Hl|]; [clear El|discriminate].
      destruct (Bltb t1 (Bplus mode_NE t d)) eqn:Ec.
      + apply (stops_next _ _ _ _ (clip_cut t d Ec)).
        replace (N + 41)%nat with (40 + S N)%nat by lia. apply stops_more, cut_stops; [exact Ft|]. split; assumption.
      + destruct S64 as (_ & _ & S3 & S4 & _). apply (stops_next _ _ _ _ (clip_full t d Ec)).
        assert (Hle : B2R (Bplus mode_NE t d) <= B2R t1).
        { rewrite Bltb_correct in Ec by assumption. destruct (Rlt_bool_spec (B2R t1) (B2R (Bplus mode_NE t d))); [discriminate|assumption]. }
        apply IH; [exact S3|lra|]. rewrite S_INR in HN.
        destruct (sum_error_round t d) as (e & He & Hs). rewrite <- (plus_value t d Ft Fd S3) in Hs. set (t' := Bplus mode_NE t d) in * .
        assert (HM : Rabs (B2R t') <= Rmax (Rabs (B2R t0)) (Rabs (B2R t1))).
        { apply Rabs_le. pose proof (Rmax_l (Rabs (B2R t0)) (Rabs (B2R t1))). pose proof (Rmax_r (Rabs (B2R t0)) (Rabs (B2R t1))).
          pose proof (Rle_abs (B2R t1)). pose proof (Rle_abs (- B2R t0)) as Hm. rewrite Rabs_Ropp in Hm. lra. }
        assert (Hu2 : bpow radix2 (-52) = 2 * u64). { unfold u64. change (-52)%Z with (1 + -53)%Z. rewrite bpow_plus. reflexivity. }
        assert (Hx : Rabs (B2R t' * e) <= B2R d / 2).
        { rewrite Rabs_mult, Rmult_comm. apply Rle_trans with (u64 * Rmax (Rabs (B2R t0)) (Rabs (B2R t1))).
          - apply Rmult_le_compat; try apply Rabs_pos; assumption.
          - rewrite Hu2 in Hd. lra. }
        apply Rabs_def2' in Hx. lra.
  Qed.
  Hypothesis H01 : B2R t0 < B2R t1.
  Lemma clock64_start N : B2R t1 - B2R t0 <= INR N * (B2R d / 2) -> clock_stops t1 (N + 41) t0 (clip t1 t0 d).
  Proof.
    intros HN. destruct (Bltb t1 (Bplus mode_NE t0 d)) eqn:Ec.
    - rewrite (clip_cut t0 d Ec). replace (N + 41)%nat with (S (40 + N)) by lia.
      apply (stops_next _ _ _ (Bminus mode_NE t1 t0)).
      + destruct (Bltb t1 (Bplus mode_NE t0 (Bminus mode_NE t1 t0))) eqn:E; [apply clip_cut, E|apply clip_full, E].
      + apply stops_more, cut_stops; [exact F0|]. lra.
    - rewrite (clip_full t0 d Ec). apply clock64; [exact F0|lra|exact HN].
  Qed.
End Clock.
