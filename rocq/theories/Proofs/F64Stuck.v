(** A step too small for the times it starts from is lost in rounding. *)
From Coq Require Import Reals Lra.
From Flocq Require Import Core IEEE754.BinarySingleNaN.
From Verif Require Import Model.Base Model.Scalar Model.LinAlg Model.Enums Model.Options Model.Coeffs Model.Erk.
From Verif Require Import Proofs.ErkProofs Proofs.ErkGeneric Proofs.ErkF64 Proofs.F64Steps Proofs.F64Clock.
Local Open Scope R_scope.

(** different doubles are at least 2^-54 apart, relatively *)
Lemma ulp_gap (x y : R) : generic_format radix2 (FLT_exp (-1074) 53) x -> generic_format radix2 (FLT_exp (-1074) 53) y -> 0 < x < y -> x * bpow radix2 (-53) < y - x.
Proof.
  intros Gx Gy H. pose proof (succ_le_lt radix2 (FLT_exp (-1074) 53) x y Gx Gy ltac:(lra)) as S. rewrite succ_eq_pos in S by lra.
  pose proof (ulp_FLT_gt radix2 (-1074) 53 x) as U. rewrite Rabs_right in U by lra. change (Z.opp 53) with (-53)%Z in U. lra.
Qed.
Lemma near_equal (x y : f64) : Rabs (B2R y - B2R x) <= bpow radix2 (-54) * Rabs (B2R x) -> B2R y = B2R x.
Proof.
  intros H. destruct (Req_dec (B2R y) (B2R x)) as [E|E]; [exact E|exfalso].
  pose proof (generic_format_B2R 53 1024 x) as Gx. pose proof (generic_format_B2R 53 1024 y) as Gy.
  change (SpecFloat.fexp 53 1024) with (FLT_exp (-1074) 53) in Gx, Gy.
  assert (He : bpow radix2 (-53) = 2 * bpow radix2 (-54)) by (change (-53)%Z with (1 + -54)%Z; rewrite bpow_plus; reflexivity).
  pose proof (bpow_gt_0 radix2 (-54)) as P.
  assert (Hu : bpow radix2 (-54) <= / 4). { replace (/ 4) with (bpow radix2 (-2)) by (simpl; lra). apply bpow_le. lia. }
  assert (G : forall x y, generic_format radix2 (FLT_exp (-1074) 53) x -> generic_format radix2 (FLT_exp (-1074) 53) y -> 0 < x -> x <> y ->
    Rabs (y - x) <= bpow radix2 (-54) * x -> False).
  { clear - He P Hu. intros x y Gx Gy Px N H. apply Rabs_def2' in H.
    assert (Hb : bpow radix2 (-54) * x <= / 4 * x) by (apply Rmult_le_compat_r; lra).
    destruct (Rlt_le_dec x y) as [L|L].
    - pose proof (ulp_gap x y Gx Gy (conj Px L)) as U. rewrite He in U. nra.
    - assert (L' : y < x) by lra. pose proof (ulp_gap y x Gy Gx ltac:(lra)) as U. rewrite He in U. nra. }
  destruct (Rtotal_order (B2R x) 0) as [L|[Z|L]].
  - apply (G (- B2R x) (- B2R y)); try (apply generic_format_opp; assumption); try lra.
    replace (- B2R y - - B2R x) with (- (B2R y - B2R x)) by ring. rewrite Rabs_Ropp.
    rewrite (Rabs_left (B2R x)) in H by exact L. exact H.
  - rewrite Z, Rabs_R0, Rmult_0_r in H. pose proof (Rabs_pos (B2R y - 0)). apply E. rewrite Z. assert (Rabs (B2R y - 0) = 0) as A by lra.
    destruct (Req_dec (B2R y) 0) as [A'|A']; [exact A'|]. exfalso. revert A. apply Rabs_no_R0. lra.
  - apply (G (B2R x) (B2R y)); try assumption; try lra. rewrite (Rabs_right (B2R x)) in H by lra. exact H.
Qed.
Lemma lost64 (t d : f64) : is_finite t = true -> is_finite d = true -> Rabs (B2R t) <= big -> 0 < B2R d <= bpow radix2 (-55) * Rabs (B2R t) ->
  Bplus mode_NE t d = t.
Proof.
  intros Ft Fd Bt Hd. pose proof big_pos as Pb. pose proof (Rabs_pos (B2R t)) as Pt.
  assert (He : bpow radix2 (-54) = 2 * bpow radix2 (-55)) by (change (-54)%Z with (1 + -55)%Z; rewrite bpow_plus; reflexivity).
  assert (Hu : bpow radix2 (-55) <= 1). { change 1 with (bpow radix2 0). apply bpow_le. lia. }
  assert (Hb : bpow radix2 (-55) * Rabs (B2R t) <= 1 * Rabs (B2R t)) by (apply Rmult_le_compat_r; lra).
  assert (Hn : B2R t <> 0). { intros Z. rewrite Z, Rabs_R0, Rmult_0_r in Hd. lra. }
  apply Rabs_def2' in Bt as Bt'.
  destruct (plus_fin t d Ft Fd ltac:(apply Rabs_le; lra)) as [Fp Vp].
  assert (Hv : B2R (Bplus mode_NE t d) = B2R t).
  { apply near_equal. rewrite Vp. pose proof (nearest64 (B2R t + B2R d) t) as N.
    replace (B2R t - (B2R t + B2R d)) with (- B2R d) in N by ring. rewrite Rabs_Ropp, (Rabs_right (B2R d)) in N by lra. apply Rabs_def2' in N.
    rewrite He. apply Rabs_le. lra. }
  apply B2R_inj; [| |exact Hv].
  - destruct (Bplus mode_NE t d); try discriminate; [|reflexivity]. exfalso. apply Hn. rewrite <- Hv. reflexivity.
  - destruct t; try discriminate; [|reflexivity]. exfalso. apply Hn. reflexivity.
Qed.
Lemma stuck64 pw (HL : LinAlg f64) (HE : Env f64) (St : Type) (F : functor f64 St) fuel (t0 t1 : f64) y0 opts oo m (dt : f64) w w' sol :
  let HS := F64Scalar pw in
  eo_adaptive opts = false -> (eo_max_steps opts < 0)%Z -> is_finite t0 = true -> is_finite t1 = true -> is_finite dt = true ->
  Rabs (B2R t0) <= bpow radix2 1022 -> B2R t0 < B2R t1 -> 0 < B2R dt <= bpow radix2 (-55) * Rabs (B2R t0) ->
  erk_odeint fuel F t0 t1 y0 opts oo m dt w <> (w', Ok sol).
Proof.
  intros HS Ha Hm F0 F1 Fd B0 H01 Hd. pose proof (lost64 t0 dt F0 Fd B0 Hd) as Hl.
  apply erk_never_advances; try assumption.
  - change (Bltb t0 t1 = true). rewrite Bltb_correct by assumption. apply Rlt_bool_true, H01.
  - change (Bltb t1 (Bplus mode_NE t0 dt) = false). rewrite Hl. rewrite Bltb_correct by assumption. apply Rlt_bool_false. lra.
Qed.

From Verif Require Import Spec.ErkSpec.
Lemma pow_value (z : f64) k : match z with B754_finite false m e _ => (Z.pos m =? 2 ^ 52)%Z && (e =? k - 52)%Z | _ => false end = true -> is_finite z = true /\ B2R z = bpow radix2 k.
Proof.
  intros E. destruct z as [?|?| |[|] m e He]; try discriminate. split; [reflexivity|]. apply andb_prop in E. destruct E as [E1 E2]. apply Z.eqb_eq in E1, E2.
  change (F2R (Float radix2 (Z.pos m) e) = bpow radix2 k). rewrite E1, E2. unfold F2R. cbn [Fnum Fexp].
  change (IZR (2 ^ 52)) with (bpow radix2 52). rewrite <- bpow_plus. f_equal. lia.
Qed.
Lemma stuck64_example : is_finite (dyadic 1 53) = true /\ is_finite (dyadic 1 54) = true /\ is_finite (dyadic 1 (-2)) = true /\
  Rabs (B2R (dyadic 1 53)) <= bpow radix2 1022 /\ B2R (dyadic 1 53) < B2R (dyadic 1 54) /\ 0 < B2R (dyadic 1 (-2)) <= bpow radix2 (-55) * Rabs (B2R (dyadic 1 53)).
Proof.
  destruct (pow_value (dyadic 1 53) 53 ltac:(vm_compute; reflexivity)) as [F1 V1].
  destruct (pow_value (dyadic 1 54) 54 ltac:(vm_compute; reflexivity)) as [F2 V2].
  destruct (pow_value (dyadic 1 (-2)) (-2) ltac:(vm_compute; reflexivity)) as [F3 V3].
  rewrite V1, V2, V3. rewrite (Rabs_right (bpow radix2 53)) by (apply Rle_ge, bpow_ge_0).
  split; [exact F1|]. split; [exact F2|]. split; [exact F3|]. split; [apply bpow_le; lia|]. split; [apply bpow_lt; lia|].
  split; [apply bpow_gt_0|]. rewrite <- bpow_plus. apply Rle_refl.
Qed.
