(** Clipped steps in doubles. *)
From Coq Require Import Reals Lra.
From Flocq Require Import Core Plus_error Relative IEEE754.BinarySingleNaN.
From Verif Require Import Model.Base Model.Scalar.
Local Open Scope R_scope.

Definition rnd64 (x : R) : R := round radix2 (SpecFloat.fexp 53 1024) (round_mode mode_NE) x.
Definition big : R := bpow radix2 1022.

Lemma rnd64_mono x y : x <= y -> rnd64 x <= rnd64 y.
Proof. apply round_le; typeclasses eauto. Qed.
Lemma rnd64_id (x : f64) : rnd64 (B2R x) = B2R x.
Proof. apply round_generic; [typeclasses eauto|apply generic_format_B2R]. Qed.
Lemma format_bpow e : (-1074 <= e < 1024)%Z -> generic_format radix2 (SpecFloat.fexp 53 1024) (bpow radix2 e).
Proof. intros He. apply generic_format_bpow. unfold SpecFloat.fexp, SpecFloat.emin. lia. Qed.
Lemma rnd64_bpow e : (-1074 <= e < 1024)%Z -> rnd64 (bpow radix2 e) = bpow radix2 e.
Proof. intros He. apply round_generic; [typeclasses eauto|apply format_bpow, He]. Qed.
Lemma rnd64_abs x e : (-1074 <= e < 1024)%Z -> Rabs x <= bpow radix2 e -> Rabs (rnd64 x) <= bpow radix2 e.
Proof. intros He H. apply abs_round_le_generic; [typeclasses eauto|typeclasses eauto|apply format_bpow, He|exact H]. Qed.
Lemma rnd64_nonneg x : 0 <= x -> 0 <= rnd64 x.
Proof. intros H. rewrite <- (round_0 radix2 (SpecFloat.fexp 53 1024) (round_mode mode_NE)). apply rnd64_mono, H. Qed.

(** a relative error of at most 2^-53, for sums *)
Definition u64 : R := bpow radix2 (-53).
Lemma sum_error (x y : f64) : exists eps, Rabs eps <= u64 /\ rnd64 (B2R x + B2R y) = (B2R x + B2R y) * (1 + eps).
Proof.
  destruct (FLT_plus_error_N_ex radix2 (-1074) 53 (fun x => negb (Z.even x)) (B2R x) (B2R y)
    (generic_format_B2R 53 1024 x) (generic_format_B2R 53 1024 y)) as (eps & He & Hr).
  exists eps. split; [|exact Hr]. eapply Rle_trans; [exact He|]. unfold u_ro, u64.
  assert (B : bpow radix2 (-53) = / 2 * bpow radix2 (- (53) + 1)) by (rewrite <- (bpow_plus radix2 (-1)); reflexivity).
  rewrite <- B. pose proof (bpow_gt_0 radix2 (-53)) as P. apply (Rmult_le_reg_r (1 + bpow radix2 (-53))); [lra|].
  unfold Rdiv. rewrite Rmult_assoc, Rinv_l by lra. nra.
Qed.
Lemma diff_error (x y : f64) : exists eps, Rabs eps <= u64 /\ rnd64 (B2R x - B2R y) = (B2R x - B2R y) * (1 + eps).
Proof. destruct (sum_error x (Bopp y)) as (eps & He & Hr). rewrite B2R_Bopp in Hr. exists eps. split; [exact He|exact Hr]. Qed.

(** ** Operations that do not overflow *)
Lemma big_pos : 0 < big. Proof. apply bpow_gt_0. Qed.
Lemma big_2 : bpow radix2 1023 = 2 * big.
Proof. unfold big. change 1023%Z with (1 + 1022)%Z. rewrite bpow_plus. reflexivity. Qed.
Lemma plus_fin (x y : f64) : is_finite x = true -> is_finite y = true -> Rabs (B2R x + B2R y) <= 2 * big ->
  is_finite (Bplus mode_NE x y) = true /\ B2R (Bplus mode_NE x y) = rnd64 (B2R x + B2R y).
Proof.
  intros Hx Hy H. pose proof (Bplus_correct 53 1024 _ _ mode_NE x y Hx Hy) as C. fold (rnd64 (B2R x + B2R y)) in C.
  rewrite Rlt_bool_true in C; [destruct C as (C1 & C2 & _); auto|].
  rewrite <- big_2 in H. eapply Rle_lt_trans; [apply (rnd64_abs _ 1023 ltac:(lia) H)|]. apply bpow_lt. lia.
Qed.
Lemma minus_fin (x y : f64) : is_finite x = true -> is_finite y = true -> Rabs (B2R x - B2R y) <= 2 * big ->
  is_finite (Bminus mode_NE x y) = true /\ B2R (Bminus mode_NE x y) = rnd64 (B2R x - B2R y).
Proof.
  intros Hx Hy H. pose proof (Bminus_correct 53 1024 _ _ mode_NE x y Hx Hy) as C. fold (rnd64 (B2R x - B2R y)) in C.
  rewrite Rlt_bool_true in C; [destruct C as (C1 & C2 & _); auto|].
  rewrite <- big_2 in H. eapply Rle_lt_trans; [apply (rnd64_abs _ 1023 ltac:(lia) H)|]. apply bpow_lt. lia.
Qed.

(** not NaN and not negative *)
Definition nonneg64 (d : f64) : Prop := match d with B754_nan => False | B754_infinity s => s = false | _ => 0 <= B2R d end.
Lemma nonneg_finite d : is_finite d = true -> 0 <= B2R d -> nonneg64 d.
Proof. destruct d; simpl; try discriminate; auto. Qed.
Lemma nonneg_cases d : nonneg64 d -> d = B754_infinity false \/ (is_finite d = true /\ 0 <= B2R d).
Proof. destruct d as [s|s| |s m e H]; simpl; intros H0; try contradiction; [right; auto|left; subst; reflexivity|right; auto]. Qed.
Lemma ltb_inf (t : f64) : is_finite t = true -> Bltb t (B754_infinity false) = true.
Proof. destruct t as [s|s| |s m e H]; simpl; try discriminate; intros _; [reflexivity|]. destruct s; reflexivity. Qed.

Lemma Rabs_def2' x a : Rabs x <= a -> - a <= x <= a.
Proof. intros H. split; [pose proof (Rle_abs (- x)) as K; rewrite Rabs_Ropp in K; lra|pose proof (Rle_abs x); lra]. Qed.

Section Clip.
  Context (pw : f64 -> f64 -> f64).
  Let HS := F64Scalar pw.
  Variables (t0 t1 : f64).
  Hypothesis F0 : is_finite t0 = true.
  Hypothesis F1 : is_finite t1 = true.
  Hypothesis B0 : Rabs (B2R t0) <= big.
  Hypothesis B1 : Rabs (B2R t1) <= big.

  (** one step from t with step size d *)
  Lemma step64 (t d : f64) : is_finite t = true -> B2R t0 <= B2R t -> Bltb t t1 = true -> nonneg64 d ->
    let a := if Bltb t1 (Bplus mode_NE t d) then Bminus mode_NE t1 t else d in
    let t' := Bplus mode_NE t a in
    is_finite a = true /\ 0 <= B2R a /\
    is_finite t' = true /\ B2R t <= B2R t' <= B2R t1 + bpow radix2 (-52) * (B2R t1 - B2R t0 + Rabs (B2R t1)).
  Proof.
    intros Ft Ht Hlt Hd. cbv zeta. rewrite Bltb_correct in Hlt by assumption.
    destruct (Rlt_bool_spec (B2R t) (B2R t1)) as [Hl|Hl]; [clear Hlt|discriminate].
    pose proof big_pos as Pb. pose proof (bpow_gt_0 radix2 (-53)) as Pu. fold u64 in Pu.
    assert (Hu : u64 <= / 4). { unfold u64. replace (/ 4) with (bpow radix2 (-2)) by (simpl; lra). apply bpow_le. lia. }
    assert (Hu2 : bpow radix2 (-52) = 2 * u64). { unfold u64. change (-52)%Z with (1 + -53)%Z. rewrite bpow_plus. reflexivity. }
    apply Rabs_def2' in B0. apply Rabs_def2' in B1. destruct B0 as [B0a B0b], B1 as [B1a B1b].
    (* the step t1 - t *)
    destruct (minus_fin t1 t F1 Ft ltac:(apply Rabs_le; lra)) as [Fa Va].
    destruct (diff_error t1 t) as (e1 & He1 & Hr1). rewrite Hr1 in Va. apply Rabs_def2' in He1.
    assert (Pa : 0 <= B2R (Bminus mode_NE t1 t)) by (rewrite Va; apply Rmult_le_pos; lra).
    assert (Pc : is_finite (Bplus mode_NE t (Bminus mode_NE t1 t)) = true /\ B2R t <= B2R (Bplus mode_NE t (Bminus mode_NE t1 t)) <= B2R t1 + bpow radix2 (-52) * (B2R t1 - B2R t0 + Rabs (B2R t1))).
    { set (a := Bminus mode_NE t1 t) in * .
      assert (Hs : B2R t + B2R a = B2R t1 + e1 * (B2R t1 - B2R t)) by (rewrite Va; ring).
      assert (He : Rabs (e1 * (B2R t1 - B2R t)) <= u64 * (B2R t1 - B2R t)).
      { rewrite Rabs_mult, (Rabs_right (B2R t1 - B2R t)) by lra. apply Rmult_le_compat_r; [lra|apply Rabs_le; lra]. }
      apply Rabs_def2' in He.
      assert (Hx : u64 * (B2R t1 - B2R t) <= / 4 * (B2R t1 - B2R t)) by (apply Rmult_le_compat_r; lra).
      destruct (plus_fin t a Ft Fa ltac:(rewrite Hs; apply Rabs_le; lra)) as [Fp Vp]. split; [exact Fp|]. rewrite Vp. split.
      - rewrite <- (rnd64_id t) at 1. apply rnd64_mono. lra.
      - destruct (sum_error t a) as (e2 & He2 & Hr2). rewrite Hr2, Hs, Hu2.
        assert (Hm : (B2R t1 + e1 * (B2R t1 - B2R t)) * e2 <= Rabs (B2R t1 + e1 * (B2R t1 - B2R t)) * u64).
        { eapply Rle_trans; [apply Rle_abs|]. rewrite Rabs_mult. apply Rmult_le_compat_l; [apply Rabs_pos|exact He2]. }
        assert (Ha : Rabs (B2R t1 + e1 * (B2R t1 - B2R t)) <= Rabs (B2R t1) + / 4 * (B2R t1 - B2R t)).
        { eapply Rle_trans; [apply Rabs_triang|]. apply Rplus_le_compat_l. apply Rabs_le. lra. }
        apply (Rmult_le_compat_r u64) in Ha; [|lra]. pose proof (Rabs_pos (B2R t1)) as Ptt.
        assert (Hy : u64 * (B2R t1 - B2R t) <= u64 * (B2R t1 - B2R t0)) by (apply Rmult_le_compat_l; lra).
        assert (0 <= u64 * Rabs (B2R t1)) by (apply Rmult_le_pos; lra).
        assert (0 <= u64 * (B2R t1 - B2R t)) by (apply Rmult_le_pos; lra).
        assert (E : (B2R t1 + e1 * (B2R t1 - B2R t)) * (1 + e2) = B2R t1 + e1 * (B2R t1 - B2R t) + (B2R t1 + e1 * (B2R t1 - B2R t)) * e2) by ring.
        rewrite E.
        lra. }
    destruct (Bltb t1 (Bplus mode_NE t d)) eqn:Eb.
    - split; [exact Fa|]. split; [exact Pa|exact Pc].
    - destruct (nonneg_cases d Hd) as [->|[Fd Pd]].
      + exfalso. destruct t as [s|s| |s m e H]; try discriminate; simpl in Eb; destruct t1 as [s1|s1| |[|] m1 e1' H1]; discriminate.
      + pose proof (Bplus_correct 53 1024 _ _ mode_NE t d Ft Fd) as C. fold (rnd64 (B2R t + B2R d)) in C.
        destruct (Rlt_bool_spec (Rabs (rnd64 (B2R t + B2R d))) (bpow radix2 1024)) as [Hb|Hb].
        * destruct C as (C1 & C2 & _). fold (rnd64 (B2R t + B2R d)) in C1. rewrite Bltb_correct in Eb by assumption.
          destruct (Rlt_bool_spec (B2R t1) (B2R (Bplus mode_NE t d))) as [|Hle]; [discriminate|].
          assert (Hmono : B2R t <= rnd64 (B2R t + B2R d)) by (rewrite <- (rnd64_id t) at 1; apply rnd64_mono; lra).
          split; [exact Fd|]. split; [exact Pd|]. split; [exact C2|]. split; [rewrite C1; exact Hmono|].
          assert (0 <= bpow radix2 (-52) * (B2R t1 - B2R t0 + Rabs (B2R t1))) by (rewrite Hu2; pose proof (Rabs_pos (B2R t1)); apply Rmult_le_pos; lra). lra.
        * exfalso. destruct C as [C1 C2].
          assert (Hsg : Bsign t = false).
          { destruct (Bsign t) eqn:Es; [|reflexivity]. exfalso. symmetry in C2.
            assert (B2R d <= 0) by (destruct d as [s|s| |[|] m e H]; simpl in *; try discriminate; try lra; apply F2R_le_0; simpl; lia).
            assert (B2R d = 0) by lra. rewrite H0, Rplus_0_r, rnd64_id in Hb. pose proof (abs_B2R_lt_emax 53 1024 t). lra. }
          rewrite Hsg in C1. unfold Bltb in Eb. rewrite C1 in Eb. simpl in Eb. destruct t1 as [s1|s1| |[|] m1 e1' H1]; discriminate.
  Qed.
End Clip.
