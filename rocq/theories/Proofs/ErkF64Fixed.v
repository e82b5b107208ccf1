(** Fixed-step explicit runs in doubles return. *)
From Coq Require Import Reals Lra.
From Flocq Require Import Core IEEE754.BinarySingleNaN.
From Verif Require Import Model.Base Model.Scalar Model.LinAlg Model.Enums Model.Options Model.Coeffs Model.Erk.
From Verif Require Import Spec.Observe Spec.Methods Proofs.ErkProofs Proofs.ErkGeneric Proofs.F64Steps Proofs.ErkF64Times Proofs.ErkClock Proofs.F64Clock.
Local Open Scope R_scope.

Lemma zero_eq64 pw : @seqb f64 (F64Scalar pw) (@slit f64 (F64Scalar pw) 0 0) (@slit f64 (F64Scalar pw) 0 0) = true. Proof. vm_compute. reflexivity. Qed.
Lemma pos_ltb (d : f64) : is_finite d = true -> 0 < B2R d -> Bltb (B754_zero false) d = true.
Proof. intros Fd Pd. rewrite Bltb_correct by (exact eq_refl || exact Fd). apply Rlt_bool_true. exact Pd. Qed.

Section Fixed.
  Context (pw : f64 -> f64 -> f64).
  Let HS := F64Scalar pw.
  Existing Instance HS.
  Lemma clip_positive (t0 t1 d : f64) : is_finite t0 = true -> is_finite t1 = true -> Rabs (B2R t0) <= big -> Rabs (B2R t1) <= big ->
    B2R t0 < B2R t1 -> Bltb (B754_zero false) d = true -> Bltb (B754_zero false) (clip t1 t0 d) = true.
  Proof.
    intros F0 F1 B0 B1 H01 Hd. destruct (Bltb t1 (Bplus mode_NE t0 d)) eqn:Ec; [|exact (eq_ind _ (fun z : f64 => Bltb (B754_zero false) z = true) Hd _ (eq_sym (clip_full pw t1 t0 d Ec)))].
    refine (eq_ind _ (fun z : f64 => Bltb (B754_zero false) z = true) _ _ (eq_sym (clip_cut pw t1 t0 d Ec))). apply Rabs_def2' in B0. apply Rabs_def2' in B1.
    destruct (minus_fin t1 t0 F1 F0 ltac:(apply Rabs_le; lra)) as [Fa Va]. apply pos_ltb; [exact Fa|].
    destruct (diff_error t1 t0) as (e & He & Hr). rewrite Va, Hr. apply Rabs_def2' in He.
    assert (Hu : u64 <= / 4). { unfold u64. replace (/ 4) with (bpow radix2 (-2)) by (simpl; lra). apply bpow_le. lia. }
    apply Rmult_lt_0_compat; lra.
  Qed.
  Lemma steps_needed (a d : R) : 0 < d -> 0 <= a -> exists N, a <= INR N * (d / 2) /\ INR N <= 2 * a / d + 1.
  Proof.
    intros Pd Pa. exists (Z.to_nat (up (2 * a / d))). destruct (archimed (2 * a / d)) as [U1 U2].
    assert (Hq : 0 <= 2 * a / d) by (apply Rmult_le_pos; [lra|]; apply Rlt_le, Rinv_0_lt_compat, Pd).
    assert (Hz : (0 <= up (2 * a / d))%Z) by (apply le_IZR; lra).
    rewrite INR_IZR_INZ, Z2Nat.id by exact Hz. split; [|lra].
    assert (E : a = 2 * a / d * (d / 2)) by (field; lra). rewrite E at 1. apply Rmult_le_compat_r; lra.
  Qed.
  Lemma fixed64 (HL : LinAlg f64) (HE : Env f64) (St : Type) (F : functor f64 St) (t0 t1 : f64) y0 opts oo m (dt : f64) :
    returns_dim F (length y0) -> In m explicit_methods -> (write_to_file oo = true -> output_stream oo <> None) ->
    eo_adaptive opts = false \/ ~ In m explicit_embedded ->
    is_finite t0 = true -> is_finite t1 = true -> is_finite dt = true -> Rabs (B2R t0) <= bpow radix2 1022 -> Rabs (B2R t1) <= bpow radix2 1022 ->
    B2R t0 < B2R t1 -> 0 < B2R dt -> bpow radix2 (-52) * Rmax (Rabs (B2R t0)) (Rabs (B2R t1)) <= B2R dt ->
    forall w, exists n w' sol, (forall fuel, (n <= fuel)%nat -> erk_odeint fuel F t0 t1 y0 opts oo m dt w = (w', Ok sol)) /\
    INR (length (eo_t_vals sol)) <= 2 * (B2R t1 - B2R t0) / B2R dt + 43 /\ ((eo_max_steps opts < 0)%Z -> eo_status sol = SUCCESS).
  Proof.
    intros HF Hm Hoo Hfix F0 F1 Fd B0 B1 H01 Pd Hd w.
    destruct (steps_needed (B2R t1 - B2R t0) (B2R dt) Pd ltac:(lra)) as (N & N1 & N2).
    pose proof (clock64_start pw t0 t1 F0 F1 B0 B1 dt Fd Pd Hd H01 N N1) as Hc.
    pose proof (clip_positive t0 t1 dt F0 F1 B0 B1 H01 (pos_ltb dt Fd Pd)) as Hp.
    destruct (clock_final F t0 t1 y0 opts oo m dt HF Hm Hoo Hfix (zero_eq64 pw) (N + 41) (or_intror Hp) Hc w) as (w' & sol & Hr & Hl).
    exists (S (N + 41)), w', sol. split; [exact Hr|]. split.
    - apply le_INR in Hl. rewrite S_INR, plus_INR in Hl. replace (INR 41) with 41 in Hl by (simpl; lra). lra.
    - intros Hms. destruct (erk_limit F (S (N + 41)) t0 t1 y0 opts oo m dt w w' sol (Hr _ (le_n _))) as [[Es _]|(_ & _ & Em & _)]; [exact Es|lia].
  Qed.
End Fixed.

(** The oscillator from 0 to 1 in steps of 0.1: ten sums give 0.99..., so there is an eleventh step. *)
From Verif Require Import Spec.ErkSpec Proofs.ErkExamples.
Definition tenth : f64 := @slit f64 ex_S 1 (-1).
Lemma tenth_finite : is_finite tenth = true. Proof. vm_compute. reflexivity. Qed.
Lemma eps_value (z : f64) : match z with B754_finite false m e _ => (Z.pos m =? 2 ^ 52)%Z && (e =? -104)%Z | _ => false end = true -> B2R z = bpow radix2 (-52).
Proof.
  intros E. destruct z as [?|?| |[|] m e He]; try discriminate. apply andb_prop in E. destruct E as [E1 E2]. apply Z.eqb_eq in E1, E2.
  change (F2R (Float radix2 (Z.pos m) e) = bpow radix2 (-52)). rewrite E1, E2. unfold F2R. cbn [Fnum Fexp].
  change (IZR (2 ^ 52)) with (bpow radix2 52). rewrite <- bpow_plus. reflexivity.
Qed.
Lemma eps_finite : is_finite (dyadic 1 (-52)) = true. Proof. vm_compute. reflexivity. Qed.
Lemma eps_tenth : Bltb (dyadic 1 (-52)) tenth = true. Proof. vm_compute. reflexivity. Qed.
Lemma tenth_large : bpow radix2 (-52) <= B2R tenth.
Proof.
  rewrite <- (eps_value (dyadic 1 (-52))) by (vm_compute; reflexivity). apply Rlt_le. exact (ltb_lt _ _ eps_finite tenth_finite eps_tenth).
Qed.
Lemma tenth_run : match @erk_odeint f64 ex_S ex_LA (ex_E false) _ 54 ex_osc (@sZ f64 ex_S 0) (@sZ f64 ex_S 1) [@sZ f64 ex_S 1; @sZ f64 ex_S 0] (ex_opts false (-1))
    output_options_default RUNGE_KUTTA_4 tenth (World tt []) with
  | (_, Ok sol) => (eo_status sol =? SUCCESS)%Z && (length (eo_t_vals sol) =? 12)%nat | _ => false end = true.
Proof. vm_compute. reflexivity. Qed.
Lemma osc_dim : returns_dim ex_osc 2.
Proof.
  intros t y s Hy. exists s. destruct y as [|a [|b [|c y]]]; try discriminate. eexists. split; reflexivity.
Qed.
Lemma fixed64_example : returns_dim ex_osc 2 /\ is_finite tenth = true /\
  bpow radix2 (-52) * Rmax (Rabs (B2R (@sZ f64 ex_S 0))) (Rabs (B2R (@sZ f64 ex_S 1))) <= B2R tenth /\
  exists w sol, @erk_odeint f64 ex_S ex_LA (ex_E false) _ 54 ex_osc (@sZ f64 ex_S 0) (@sZ f64 ex_S 1) [@sZ f64 ex_S 1; @sZ f64 ex_S 0] (ex_opts false (-1))
    output_options_default RUNGE_KUTTA_4 tenth (World tt []) = (w, Ok sol) /\ eo_status sol = SUCCESS /\ length (eo_t_vals sol) = 12%nat.
Proof.
  split; [exact osc_dim|]. split; [exact tenth_finite|]. split.
  - change (B2R (@sZ f64 ex_S 0)) with (B2R (f64_lit 0 0)). change (B2R (@sZ f64 ex_S 1)) with (B2R (f64_lit 1 0)).
    rewrite zero_value, one_value, Rabs_R0, Rabs_R1. rewrite Rmax_right by lra. rewrite Rmult_1_r. exact tenth_large.
  - pose proof tenth_run as T. match type of T with match ?r with _ => _ end = true => destruct r as [w [sol|e]] eqn:E end; [|discriminate].
    apply andb_prop in T. destruct T as [T1 T2]. apply Z.eqb_eq in T1. apply Nat.eqb_eq in T2. exists w, sol. split; [reflexivity|]. split; assumption.
Qed.
