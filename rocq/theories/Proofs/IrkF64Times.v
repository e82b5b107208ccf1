(** The times of an implicit run in doubles. *)
From Coq Require Import Reals Lra Sorted.
From Flocq Require Import Core IEEE754.BinarySingleNaN.
From Verif Require Import Model.Base Model.Scalar Model.LinAlg Model.Newton Model.Enums Model.Options Model.Coeffs Model.Irk Model.IrkCoeffs.
From Verif Require Import Spec.Sums Spec.Observe Spec.ErkSpec Spec.NewtonSpec Spec.IrkSpec Spec.Methods Spec.F64Spec.
From Verif Require Import Proofs.LoopProofs Proofs.ErkProofs Proofs.IrkProofs Proofs.IrkRun Proofs.IrkGeneric Proofs.IrkResults Proofs.F64Steps Proofs.ErkF64Times.
Local Open Scope R_scope.

(** ** Sign bits *)
Lemma mult_sign (a b : f64) : Bsign a = false -> Bsign b = false -> Bsign (Bmult mode_NE a b) = false.
Proof.
  intros Sa Sb. pose proof (Bmult_correct 53 1024 _ _ mode_NE a b) as C. rewrite Sa, Sb in C. change (xorb false false) with false in C.
  destruct (Bmult mode_NE a b) as [s|s| |s m' e' H'] eqn:E; [| |reflexivity|].
  - destruct (Rlt_bool _ _); [|simpl in C; discriminate]. destruct C as (_ & _ & C3). apply C3. reflexivity.
  - destruct (Rlt_bool _ _); [|simpl in C; injection C as ->; reflexivity]. destruct C as (_ & _ & C3). apply C3. reflexivity.
  - destruct (Rlt_bool _ _); [|simpl in C; discriminate]. destruct C as (_ & _ & C3). apply C3. reflexivity.
Qed.
Lemma div_sign (a b : f64) : Bsign a = false -> Bsign b = false -> Bsign (Bdiv mode_NE a b) = false.
Proof.
  intros Sa Sb. destruct b as [sb|sb| |sb mb eb Hb]; [destruct a; simpl in *; rewrite ?Sa, ?Sb; reflexivity..|].
  set (b := B754_finite sb mb eb Hb) in * . assert (Nz : B2R b <> 0).
  { simpl in Sb. subst sb. apply Rgt_not_eq. apply F2R_gt_0. simpl. lia. }
  pose proof (Bdiv_correct 53 1024 _ _ mode_NE a b Nz) as C. rewrite Sa, Sb in C. change (xorb false false) with false in C.
  destruct (Bdiv mode_NE a b) as [s|s| |s m' e' H'] eqn:E; [| |reflexivity|].
  - destruct (Rlt_bool _ _); [|simpl in C; discriminate]. destruct C as (_ & _ & C3). apply C3. reflexivity.
  - destruct (Rlt_bool _ _); [|simpl in C; injection C as ->; reflexivity]. destruct C as (_ & _ & C3). apply C3. reflexivity.
  - destruct (Rlt_bool _ _); [|simpl in C; discriminate]. destruct C as (_ & _ & C3). apply C3. reflexivity.
Qed.
Lemma plus_sign (a b : f64) : Bsign a = false -> Bsign b = false -> Bsign (Bplus mode_NE a b) = false.
Proof.
  intros Sa Sb. destruct (is_finite a) eqn:Fa.
  - destruct (is_finite b) eqn:Fb; [|destruct a, b; simpl in *; try discriminate; try assumption; reflexivity].
    assert (Va : 0 <= B2R a) by (destruct a as [s|s| |s m e H]; simpl in *; subst; try lra; apply F2R_ge_0; simpl; lia).
    assert (Vb : 0 <= B2R b) by (destruct b as [s|s| |s m e H]; simpl in *; subst; try lra; apply F2R_ge_0; simpl; lia).
    pose proof (Bplus_correct 53 1024 _ _ mode_NE a b Fa Fb) as C. rewrite Sa, Sb in C. destruct (Rlt_bool _ _).
    + destruct C as (_ & _ & ->). destruct (Rcompare_spec (B2R a + B2R b) 0); [lra|reflexivity|reflexivity].
    + destruct C as [C _]. destruct (Bplus mode_NE a b) as [s|s| |s m' e' H']; simpl in C; try discriminate. injection C as ->; reflexivity.
  - destruct a, b; simpl in *; subst; try discriminate; reflexivity.
Qed.
Lemma int_sign z : (0 <= z < 2 ^ 31)%Z -> Bsign (f64_lit z 0) = false.
Proof.
  intros Hz. unfold f64_lit. change (10 ^ 0)%Z with 1%Z. rewrite Z.mul_1_r.
  pose proof (binary_normalize_correct 53 1024 _ _ mode_NE z 0 false) as C. cbv zeta in C.
  assert (E : F2R (Float radix2 z 0) = IZR z) by (unfold F2R; simpl; ring). rewrite E in C.
  assert (Hb : 0 <= IZR z) by (apply (IZR_le 0); lia). destruct (Rlt_bool (Rabs _) _).
  - destruct C as (_ & _ & ->). destruct (Rcompare_spec (IZR z) 0); [lra|reflexivity|reflexivity].
  - rewrite Rlt_bool_false in C by exact Hb. destruct (binary_normalize 53 1024 _ _ mode_NE z 0 false) as [s|s| |s m' e' H']; simpl in C; try discriminate. injection C as ->; reflexivity.
Qed.
Lemma sign_nonneg (d : f64) : Bsign d = false -> is_nan d = false -> nonneg64 d.
Proof. destruct d as [s|s| |s m e H]; simpl; intros Hs Hn; subst; try discriminate; [lra|reflexivity|]. apply F2R_ge_0. simpl. lia. Qed.
Lemma nonneg_not_nan d : nonneg64 d -> is_nan d = false.
Proof. destruct d; simpl; [reflexivity..|contradiction|reflexivity]. Qed.
Lemma positive_sign (d : f64) : Bltb (B754_zero false) d = true -> Bsign d = false.
Proof. destruct d as [s|[|]| |[|] m e H]; simpl; try discriminate; reflexivity. Qed.
Lemma not_below_sign (e eps : f64) : Bltb (B754_zero false) eps = true -> Bltb e eps = false -> Bsign e = false.
Proof.
  intros Hp H. destruct e as [s|[|]| |[|] m e He]; try reflexivity; exfalso; destruct eps as [?|[|]| |[|] ? ? ?]; try discriminate; destruct s; discriminate.
Qed.
Lemma eps_sign : Bsign machine_eps64 = false. Proof. vm_compute. reflexivity. Qed.
Lemma nine_sign : Bsign (f64_lit 9 (-1)) = false. Proof. vm_compute. reflexivity. Qed.
Lemma seven_sign : Bsign (f64_lit 7 (-1)) = false. Proof. vm_compute. reflexivity. Qed.
Lemma seven_finite : is_finite (f64_lit 7 (-1)) = true. Proof. vm_compute. reflexivity. Qed.
Lemma seven_positive : Bltb (B754_zero false) (f64_lit 7 (-1)) = true. Proof. vm_compute. reflexivity. Qed.
Lemma eight_sign : Bsign (f64_lit 8 0) = false. Proof. vm_compute. reflexivity. Qed.
Lemma eight_finite : is_finite (f64_lit 8 0) = true. Proof. vm_compute. reflexivity. Qed.
Lemma sign_value (d : f64) : Bsign d = false -> 0 <= B2R d.
Proof. destruct d as [s|s| |s m e H]; simpl; intros Hs; subst; try lra. apply F2R_ge_0. simpl. lia. Qed.

(** ** Operations that stay small *)
Lemma small_lt x e : (-1074 <= e <= 1023)%Z -> 0 <= x <= bpow radix2 e -> 0 <= rnd64 x <= bpow radix2 e /\ Rabs (rnd64 x) < bpow radix2 1024.
Proof.
  intros He [Hx1 Hx2]. pose proof (rnd64_nonneg x Hx1) as P. pose proof (rnd64_mono _ _ Hx2) as Q. rewrite rnd64_bpow in Q by lia.
  split; [lra|]. rewrite Rabs_right by lra. eapply Rle_lt_trans; [exact Q|]. apply bpow_lt. lia.
Qed.
Lemma mult_bnd (x y : f64) a b : is_finite x = true -> is_finite y = true -> 0 <= B2R x <= bpow radix2 a -> 0 <= B2R y <= bpow radix2 b -> (-1074 <= a + b <= 1023)%Z ->
  is_finite (Bmult mode_NE x y) = true /\ 0 <= B2R (Bmult mode_NE x y) <= bpow radix2 (a + b).
Proof.
  intros Fx Fy Hx Hy Hab. pose proof (Bmult_correct 53 1024 _ _ mode_NE x y) as C. fold (rnd64 (B2R x * B2R y)) in C.
  destruct (small_lt (B2R x * B2R y) (a + b) Hab) as [P Q].
  { split; [apply Rmult_le_pos; lra|]. rewrite bpow_plus. apply Rmult_le_compat; lra. }
  rewrite Rlt_bool_true in C by exact Q. destruct C as (C1 & C2 & _). fold (rnd64 (B2R x * B2R y)) in C1. rewrite C2, Fx, Fy, C1. auto.
Qed.
Lemma plus_bnd (x y : f64) a : is_finite x = true -> is_finite y = true -> 0 <= B2R x <= bpow radix2 a -> 0 <= B2R y <= bpow radix2 a -> (-1074 <= a + 1 <= 1023)%Z ->
  is_finite (Bplus mode_NE x y) = true /\ 0 <= B2R (Bplus mode_NE x y) <= bpow radix2 (a + 1).
Proof.
  intros Fx Fy Hx Hy Ha. pose proof (Bplus_correct 53 1024 _ _ mode_NE x y Fx Fy) as C. fold (rnd64 (B2R x + B2R y)) in C.
  destruct (small_lt (B2R x + B2R y) (a + 1) Ha) as [P Q].
  { split; [lra|]. rewrite bpow_plus. change (bpow radix2 1) with 2. lra. }
  rewrite Rlt_bool_true in C by exact Q. destruct C as (C1 & C2 & _). fold (rnd64 (B2R x + B2R y)) in C1. rewrite C2, C1. auto.
Qed.
Lemma div_bnd (x y : f64) a : is_finite x = true -> 0 <= B2R x <= bpow radix2 a -> 1 <= B2R y -> (-1074 <= a <= 1023)%Z ->
  is_finite (Bdiv mode_NE x y) = true /\ 0 <= B2R (Bdiv mode_NE x y) <= bpow radix2 a.
Proof.
  intros Fx Hx Hy Ha. pose proof (Bdiv_correct 53 1024 _ _ mode_NE x y ltac:(lra)) as C. fold (rnd64 (B2R x / B2R y)) in C.
  assert (Hi : 0 < / B2R y <= 1) by (split; [apply Rinv_0_lt_compat; lra|rewrite <- Rinv_1; apply Rinv_le_contravar; lra]).
  destruct (small_lt (B2R x / B2R y) a Ha) as [P Q].
  { split; [apply Rmult_le_pos; lra|]. unfold Rdiv. eapply Rle_trans; [apply Rmult_le_compat_l with (r2 := 1); lra|]. lra. }
  rewrite Rlt_bool_true in C by exact Q. destruct C as (C1 & C2 & _). fold (rnd64 (B2R x / B2R y)) in C1. rewrite C2, C1. auto.
Qed.
(** integers that fit an int *)
Lemma int_value z : (0 <= z < 2 ^ 31)%Z -> is_finite (f64_lit z 0) = true /\ 0 <= B2R (f64_lit z 0) <= bpow radix2 31 /\ ((1 <= z)%Z -> 1 <= B2R (f64_lit z 0)).
Proof.
  intros Hz. unfold f64_lit. change (10 ^ 0)%Z with 1%Z. rewrite Z.mul_1_r.
  pose proof (binary_normalize_correct 53 1024 _ _ mode_NE z 0 false) as C. cbv zeta in C.
  assert (E : F2R (Float radix2 z 0) = IZR z) by (unfold F2R; simpl; ring). rewrite E in C. fold (rnd64 (IZR z)) in C.
  assert (Hb : 0 <= IZR z <= bpow radix2 31).
  { split; [apply (IZR_le 0); lia|]. change (bpow radix2 31) with (IZR (2 ^ 31)). apply IZR_le. lia. }
  destruct (small_lt (IZR z) 31 ltac:(lia) Hb) as [P Q]. rewrite Rlt_bool_true in C by exact Q. destruct C as (C1 & C2 & _). fold (rnd64 (IZR z)) in C1. rewrite C1, C2.
  split; [reflexivity|]. split; [exact P|]. intros H1. change 1 with (bpow radix2 0). rewrite <- (rnd64_bpow 0) by lia. apply rnd64_mono. apply (IZR_le 1). lia.
Qed.

(** ** The step size controller *)
Definition ok64 (d : f64) : Prop := Bsign d = false /\ is_nan d = false.
Section Controller.
  Context (pw : f64 -> f64 -> f64).
  Hypothesis Hpw : pow_keeps_sign pw.
  Let HS := F64Scalar pw.
  Existing Instance HS.
  Lemma smin_sign (a b : f64) : Bsign a = false -> Bsign b = false -> Bsign (smin a b) = false.
  Proof. intros Ha Hb. unfold smin. destruct (sltb b a); assumption. Qed.
  Lemma smin_ok (a b : f64) : ok64 a -> ok64 b -> ok64 (smin a b).
  Proof. intros Ha Hb. unfold smin. destruct (sltb b a); assumption. Qed.
  Lemma irk_new_dt_ok opts mo maxit iters err err1 dts0 dts1 dt nd : irk_new_dt opts mo maxit iters err err1 dts0 dts1 dt = Ok nd ->
    (1 <= iters < maxit)%Z -> Bsign err = false -> Bsign err1 = false -> Bsign dts0 = false -> Bsign dts1 = false ->
    Bsign dt = false -> is_finite dt = true -> B2R dt <= bpow radix2 902 -> ok64 nd.
  Proof.
    intros Hn Hit S1 S2 S3 S4 S5 Fd Bd. unfold irk_new_dt in Hn. destruct (int_add maxit iters) as [mi|] eqn:Emi; [|discriminate]. cbn [rbind] in Hn. cbv zeta in Hn.
    assert (Hmi : mi = (maxit + iters)%Z /\ (mi < 2 ^ 31)%Z).
    { unfold int_add in Emi. destruct (_ && _)%bool eqn:Eb; [|discriminate]. injection Emi as <-. apply andb_prop in Eb. lia. }
    destruct Hmi as [-> Hmi].
    destruct (int_value maxit ltac:(lia)) as (Fm & Bm & _). destruct (int_value 1 ltac:(lia)) as (F1 & B1 & _). destruct (int_value (maxit + iters) ltac:(lia)) as (Fi & Bi & Gi). specialize (Gi ltac:(lia)).
    destruct (plus_bnd _ _ 31 Fm F1 Bm B1 ltac:(lia)) as [Fp Bp].
    destruct nine_tenths as [F9 B9].
    destruct (mult_bnd (f64_lit 9 (-1)) _ 0 (31 + 1) F9 Fp B9 Bp ltac:(lia)) as [Ft Bt].
    destruct (div_bnd _ _ _ Ft Bt Gi ltac:(lia)) as [Ff Bf].
    change (0 + (31 + 1))%Z with 32%Z in Bf.
    match type of Hn with context [smin (sZ 8) (smin ?a ?b)] => set (s27 := a) in Hn; set (s28 := b) in Hn end.
    set (fac := (slit 9 (-1) *. (sZ maxit +. sZ 1) /. sZ (maxit + iters))%sc) in * .
    assert (Sf : Bsign fac = false).
    { unfold fac. apply div_sign; [apply mult_sign; [exact nine_sign|apply plus_sign; apply int_sign; lia]|apply int_sign; lia]. }
    change (is_finite fac = true) in Ff. change (0 <= B2R fac <= bpow radix2 32) in Bf.
    assert (H27 : Bsign s27 = false) by (apply Hpw, div_sign; [exact one_sign|exact S1]).
    assert (H28 : Bsign s28 = false).
    { unfold s28. apply mult_sign; [apply mult_sign; [exact H27|apply div_sign; assumption]|]. apply Hpw. destruct (_ || _)%bool; [exact one_sign|apply div_sign; assumption]. }
    set (g := smin (sZ 8) (smin s27 s28)) in * .
    assert (Sg : Bsign g = false) by (apply smin_sign; [exact eight_sign|apply smin_sign; assumption]).
    assert (Fg : is_finite g = true).
    { unfold g. set (q := smin s27 s28). assert (Sq : Bsign q = false) by (apply smin_sign; assumption). unfold smin. change (sltb q (sZ 8)) with (Bltb q (f64_lit 8 0)).
      destruct (Bltb q (f64_lit 8 0)) eqn:E8; [|exact eight_finite]. apply (ltb_finite _ _ E8). apply sign_nonneg; [exact Sq|exact (ltb_not_nan _ _ E8)]. }
    assert (Vd := sign_value dt S5).
    destruct (mult_bnd fac dt 32 902 Ff Fd Bf (conj Vd Bd) ltac:(lia)) as [Fx Bx].
    assert (Sx := mult_sign fac dt Sf S5).
    assert (K : ok64 (Bmult mode_NE (Bmult mode_NE fac dt) g)).
    { split; [apply mult_sign; assumption|]. apply nonneg_not_nan, nonneg_mult; [exact Fx|apply Bx|exact Fg|apply sign_value, Sg]. }
    destruct (io_max_dt opts >?. sZ 0)%sc eqn:Em; injection Hn as <-; [|exact K]. apply smin_ok; [|exact K].
    change (Bltb (B754_zero false) (io_max_dt opts) = true) in Em. split; [apply positive_sign, Em|apply nonneg_not_nan, positive_nonneg, Em].
  Qed.
End Controller.

(** ** One step *)
Section Clip.
  Variables (t0 t1 : f64).
  Hypothesis F1 : is_finite t1 = true.
  Hypothesis B0 : Rabs (B2R t0) <= bpow radix2 900.
  Hypothesis B1 : Rabs (B2R t1) <= bpow radix2 900.
  Lemma small_big x : Rabs x <= bpow radix2 900 -> Rabs x <= bpow radix2 1022.
  Proof. intros H. eapply Rle_trans; [exact H|apply bpow_le; lia]. Qed.
  Lemma step_size64 (t d : f64) : is_finite t = true -> B2R t0 <= B2R t -> Bltb t t1 = true -> ok64 d ->
    let a := if Bltb t1 (Bplus mode_NE t d) then Bminus mode_NE t1 t else d in
    Bsign a = false /\ is_finite a = true /\ B2R a <= bpow radix2 902.
  Proof.
    intros Ft Ht Hlt [Sd Nd]. cbv zeta.
    destruct (step64 t0 t1 F1 (small_big _ B0) (small_big _ B1) t d Ft Ht Hlt (sign_nonneg d Sd Nd)) as (Fa & Pa & Fe & Pe).
    apply (ltb_lt _ _ Ft F1) in Hlt. apply Rabs_def2' in B0. apply Rabs_def2' in B1.
    assert (E1 : bpow radix2 901 = 2 * bpow radix2 900) by (change 901%Z with (1 + 900)%Z; rewrite bpow_plus; reflexivity).
    assert (E2 : bpow radix2 902 = 4 * bpow radix2 900) by (change 902%Z with (2 + 900)%Z; rewrite bpow_plus; reflexivity).
    assert (P : 0 < bpow radix2 900) by apply bpow_gt_0.
    destruct (Bltb t1 (Bplus mode_NE t d)) eqn:Eb.
    - pose proof (Bminus_correct 53 1024 _ _ mode_NE t1 t F1 Ft) as C. fold (rnd64 (B2R t1 - B2R t)) in C.
      destruct (small_lt (B2R t1 - B2R t) 901 ltac:(lia) ltac:(lra)) as [Q1 Q2]. rewrite Rlt_bool_true in C by exact Q2. destruct C as (C1 & C2 & C3). fold (rnd64 (B2R t1 - B2R t)) in C1.
      split; [|split; [exact C2|rewrite C1; lra]]. rewrite C3. destruct (Rcompare_spec (B2R t1 - B2R t) 0); [lra|lra|reflexivity].
    - split; [exact Sd|]. split; [exact Fa|]. rewrite Bltb_correct in Eb by assumption. destruct (Rlt_bool_spec (B2R t1) (B2R (Bplus mode_NE t d))) as [|Hle]; [discriminate|].
      apply Rnot_lt_le. intros Hgt.
      pose proof (Bplus_correct 53 1024 _ _ mode_NE t d Ft Fa) as C. fold (rnd64 (B2R t + B2R d)) in C.
      assert (Hr : bpow radix2 901 <= rnd64 (B2R t + B2R d)) by (rewrite <- (rnd64_bpow 901) by lia; apply rnd64_mono; lra).
      destruct (Rlt_bool _ _).
      + destruct C as (C1 & _). fold (rnd64 (B2R t + B2R d)) in C1. rewrite C1 in Hle. lra.
      + destruct C as (C1 & _). destruct (Bplus mode_NE t d); simpl in C1; discriminate.
  Qed.
End Clip.

Section Run.
  Context (pw : f64 -> f64 -> f64).
  Let HS := F64Scalar pw.
  Existing Instance HS.
  Context {LA : LinAlg f64} {E : Env f64} {St : Type}.
  Local Notation W := (world f64 St).
  Variables (F : functor f64 St) (t0 t1 : f64).
  Hypothesis Hpw : pow_keeps_sign pw.
  Hypothesis F0 : is_finite t0 = true.
  Hypothesis F1 : is_finite t1 = true.
  Hypothesis B0 : Rabs (B2R t0) <= bpow radix2 900.
  Hypothesis B1 : Rabs (B2R t1) <= bpow radix2 900.
  Hypothesis H01 : Bltb t0 t1 = true.
  Let over := B2R t1 + bpow radix2 (-52) * (B2R t1 - B2R t0 + Rabs (B2R t1)).
  Definition state64 (s : irk_state f64) : Prop :=
    ok64 (is_dt s) /\ Bsign (is_dts0 s) = false /\ Bsign (is_dts1 s) = false /\ Bsign (is_err0 s) = false /\ is_finite (is_t s) = true /\ B2R t0 <= B2R (is_t s).

  Lemma measure_sign tot k : Bsign (measure_of (T := f64) tot k) = false.
  Proof.
    unfold measure_of. cbv zeta. set (e := ssqrt _). change (sltb e machine_precision) with (Bltb e machine_eps64). destruct (Bltb e machine_eps64) eqn:Ee; [exact eps_sign|].
    exact (not_below_sign _ _ eps_positive Ee).
  Qed.
  Lemma solve_iters64 u0 u1 o mm d sc nopts mo dw d2w (Hst : irk_started u0 u1 o mm d sc nopts mo dw d2w) y t h maxit rf xt Rt f0 j0 (w w' : W) sr :
    newton_solve_stages F y t h sc false true maxit rf xt Rt f0 j0 w = (w', Ok sr) -> sr_status sr = Newton.SUCCESS -> (1 <= sr_iters sr < maxit)%Z.
  Proof.
    intros Hr Es. destruct (started_stages F _ _ _ _ _ _ _ _ _ _ Hst _ _ _ _ _ _ _ _ _ _ _ _ Hr) as (v0 & V & D). destruct (sd_status _ _ _ _ _ _ _ _ _ _ _ _ _ _ _ _ _ _ _ D) as [(_ & V0 & E1 & E2 & _)|(E1 & _)].
    - destruct V; [congruence|]. simpl length in E1. lia.
    - rewrite E1 in Es. discriminate.
  Qed.

  Lemma body_state64 opts oo m dt sc nopts mo dw d2w (Hst : irk_started t0 t1 opts m dt sc nopts mo dw d2w) s (w w' : W) s' :
    state64 s -> Bltb (is_t s) t1 = true -> irk_body F t1 opts sc oo nopts mo dw d2w s w = (w', Ok (inl s')) -> state64 s'.
  Proof.
    intros (X1 & X2 & X3 & X4 & X5 & X6) Hlt Hb.
    destruct (step_size64 t0 t1 F1 B0 B1 (is_t s) (is_dt s) X5 X6 Hlt X1) as (C1 & C2 & C3).
    destruct (step64 t0 t1 F1 (small_big _ B0) (small_big _ B1) (is_t s) (is_dt s) X5 X6 Hlt (sign_nonneg _ (proj1 X1) (proj2 X1))) as (_ & P2 & P3 & P4 & _).
    change (if Bltb t1 (Bplus mode_NE (is_t s) (is_dt s)) then Bminus mode_NE t1 (is_t s) else is_dt s) with (clip t1 (is_t s) (is_dt s)) in * .
    assert (N2 : is_nan (clip t1 (is_t s) (is_dt s)) = false) by (apply nonneg_not_nan, nonneg_finite; assumption).
    apply irk_body_inv in Hb. inversion Hb as [| |w1 sr maxit relax El Ead c d Hss Hst' Hm isk EQw EQs|w1 sr w2 yn est calls err nd El Ead c d Hss Hst' Hem Hgt Hnd EQw EQs|
      w1 sr w2 yn est calls err nd w3 sol El c d Hss Hst' Hem Hgt Hnd Hrec nd' EQw EQs]; clear Hb; subst s'; unfold state64; cbn [is_dt is_dts0 is_dts1 is_err0 is_t].
    - unfold d. split; [|tauto]. split; [exact (mult_sign _ _ C1 seven_sign)|]. apply nonneg_not_nan. apply nonneg_mult; [exact C2|exact P2|exact seven_finite|apply sign_value; exact seven_sign].
    - pose proof (solve_iters64 _ _ _ _ _ _ _ _ _ _ Hst _ _ _ _ _ _ _ _ _ _ _ _ Hss Hst') as Hit. destruct Hem as [_ (tot & _ & _ & Eerr)]. pose proof (measure_sign tot (length est)) as Hm. rewrite <- Eerr in Hm.
      apply (irk_new_dt_ok pw Hpw) in Hnd; try assumption. unfold ok64 in * . tauto.
    - pose proof (solve_iters64 _ _ _ _ _ _ _ _ _ _ Hst _ _ _ _ _ _ _ _ _ _ _ _ Hss Hst') as Hit. destruct Hem as [_ (tot & _ & _ & Eerr)]. pose proof (measure_sign tot (length est)) as Hm. rewrite <- Eerr in Hm.
      apply (irk_new_dt_ok pw Hpw) in Hnd; try assumption. assert (N : ok64 nd') by (unfold nd'; destruct (io_adaptive opts); [exact Hnd|split; assumption]).
      split; [exact N|]. split; [apply N|]. split; [exact X2|]. split; [exact Hm|]. split; [exact P3|]. change (B2R t0 <= B2R (Bplus mode_NE (is_t s) d)). unfold d. lra.
  Qed.
  Variables (fuel : nat) (y0 : list f64) (opts : irk_options f64) (oo : output_options) (m : Z) (dt : f64).
  Hypothesis Hdt : Bltb (B754_zero false) dt = true.
  Lemma point_nine_sign : Bsign (@slit f64 HS 9 (-1)) = false. Proof. exact nine_sign. Qed.
  Lemma finished64 (w w' : W) sol : irk_odeint fuel F t0 t1 y0 opts oo m dt w = (w', Ok sol) ->
    exists sc nopts mo dw d2w, irk_started t0 t1 opts m dt sc nopts mo dw d2w /\ finished F t0 t1 y0 opts sc oo nopts mo dw d2w (w_out w) false (fun _ => []) [] state64 (clip t1 t0 dt) w' sol.
  Proof.
    intros Hr. refine (irk_odeint_finished F false (fun _ => []) _ _ (fun _ _ _ _ _ _ => state64) fuel t0 t1 y0 opts oo m dt w w' sol _ Hr); try discriminate.
    intros sc nopts mo dw d2w Hst. split.
    - destruct (step_size64 t0 t1 F1 B0 B1 t0 dt F0 (Rle_refl _) H01 (conj (positive_sign _ Hdt) (nonneg_not_nan _ (positive_nonneg _ Hdt)))) as (C1 & C2 & C3).
      change (if Bltb t1 (Bplus mode_NE t0 dt) then Bminus mode_NE t1 t0 else dt) with (clip t1 t0 dt) in * .
      unfold state64, irk_init. cbn [is_dt is_dts0 is_dts1 is_err0 is_t].
      split; [split; [exact C1|]|]. { apply nonneg_not_nan, nonneg_finite; [exact C2|apply sign_value, C1]. }
      split; [exact C1|]. split; [exact C1|]. split; [exact point_nine_sign|]. split; [exact F0|apply Rle_refl].
    - intros s v v' s' HX Hlt _ Hb. eapply body_state64; eassumption.
  Qed.
End Run.

