(** The multistep solvers in doubles: when they return, and which times they record. *)
From Coq Require Import Reals Lra Sorted.
From Flocq Require Import Core IEEE754.BinarySingleNaN.
From Verif Require Import Model.Base Model.Scalar Model.LinAlg Model.CyclicBuffer Model.Newton Model.Enums Model.Options Model.Coeffs Model.Irk Model.Multistep.
From Verif Require Import Spec.Observe Spec.MultistepSpec Spec.F64Spec.
From Verif Require Import Proofs.LoopProofs Proofs.ErkProofs Proofs.MultistepProofs Proofs.MultistepResults Proofs.MultistepTotal Proofs.F64Steps Proofs.F64Clock Proofs.ErkF64Fixed Proofs.F64Stuck.
Local Open Scope R_scope.

(** ** Any arithmetic: the solvers return when the clock does and the starter returns *)
Section Gen.
  Context {T : Type} {HS : Scalar T} {LA : LinAlg T} {HE : Env T} {St : Type}.
  Variables (F : functor T St) (t0 t1 dt : T) (y0 : list T).
  Hypothesis HF : returns_dim F (length y0).
  Let h := fitted_step t0 t1 dt.
  Hypothesis Hh : (h >?. sZ 0)%sc = true.
  Variable N : nat.
  Hypothesis HN : forall i, (gtime t0 h i <?. t1)%sc = true -> (i < N)%nat.

  Lemma boot_run_more f f' dh l : (f <= f')%nat -> forall s (w w' : world T St) r, foldM (boot_step F f dh) l s w = (w', Ok r) -> foldM (boot_step F f' dh) l s w = (w', Ok r).
  Proof.
    intros Hf. induction l as [|i l IHl]; intros s w w' r Hr; [exact Hr|]. cbn [foldM] in Hr |- * .
    apply bind_ok in Hr. destruct Hr as (w2 & s2 & K3 & Hr). rewrite (bind_run _ _ _ _ _ (boot_more F f f' _ _ _ _ _ _ Hf K3)). apply IHl, Hr.
  Qed.
  Lemma bootstrap_more f f' order dh (w w' : world T St) r : (f <= f')%nat -> bootstrap_history f F order y0 t0 dh w = (w', Ok r) -> bootstrap_history f' F order y0 t0 dh w = (w', Ok r).
  Proof.
    intros Hf Hr. unfold bootstrap_history in Hr |- * . apply bind_ok in Hr. destruct Hr as (w1 & x & K & Hr). pose proof (boot_run_more f f' dh _ Hf _ _ _ _ K) as K'. rewrite (bind_run _ _ _ _ _ K'). exact Hr.
  Qed.
  Definition started order w := exists f1 w1, forall f, (f1 <= f)%nat -> bootstrap_history f F order y0 t0 h w = (w1, Ok (grid (Z.to_nat order) t0 h, repeat y0 (Z.to_nat order))).
  Lemma ab_started t1' fuel order w w' sol : fitted_step t0 t1' dt = h -> adams_bashforth fuel F t0 t1' y0 order dt w = (w', Ok sol) -> started order w.
  Proof using F t0 t1 dt y0. clear HF Hh HN N.
    intros Eh Hr. pose proof (ab_starting fuel F t0 t1' y0 order dt w w' sol Hr) as (Ho & _). unfold adams_bashforth in Hr. cbv zeta in Hr. fold (fitted_step t0 t1' dt) in Hr. rewrite Eh in Hr.
    apply bind_ok in Hr. destruct Hr as (w1 & u & K1 & Hr). assert (w1 = w) as -> . { unfold assert_ in K1. destruct ndebug, (h >?. sZ 0)%sc; try discriminate; injection K1; auto. }
    apply bind_ok in Hr. destruct Hr as (w2 & b & K2 & Hr). apply lift_ok in K2. destruct K2 as [-> _].
    apply bind_ok in Hr. destruct Hr as (w3 & [ts ys] & K3 & _). exists fuel, w3. intros f Hf. rewrite (bootstrap_more fuel f order h w w3 _ Hf K3). f_equal. f_equal.
    apply bootstrap_values in K3. cbv zeta in K3. destruct K3 as [-> ->]. replace (Nat.max 1 (Z.to_nat order)) with (Z.to_nat order) by lia. reflexivity.
  Qed.
  Lemma bdf_started t1' fuel order w w' sol : fitted_step t0 t1' dt = h -> (1 <= order <= 6)%Z -> bdf fuel F t0 t1' y0 order dt w = (w', Ok sol) -> started (order + 1) w.
  Proof using F t0 t1 dt y0. clear HF Hh HN N.
    intros Eh Ho Hr. unfold bdf in Hr. rewrite Z.gtb_ltb in Hr. destruct (Z.ltb_spec 6 order); [lia|]. destruct (Z.leb_spec order 0); [lia|]. cbv zeta in Hr. fold (fitted_step t0 t1' dt) in Hr. rewrite Eh in Hr.
    apply bind_ok in Hr. destruct Hr as (w1 & u & K1 & Hr). assert (w1 = w) as -> . { unfold assert_ in K1. destruct ndebug, (h >?. sZ 0)%sc; try discriminate; injection K1; auto. }
    apply bind_ok in Hr. destruct Hr as (w2 & b & K2 & Hr). apply lift_ok in K2. destruct K2 as [-> _].
    apply bind_ok in Hr. destruct Hr as (w3 & [ts ys] & K3 & _). exists fuel, w3. intros f Hf. rewrite (bootstrap_more fuel f (order + 1) h w w3 _ Hf K3). f_equal. f_equal.
    apply bootstrap_values in K3. cbv zeta in K3. destruct K3 as [-> ->]. replace (Nat.max 1 (Z.to_nat (order + 1))) with (Z.to_nat (order + 1)) by lia. reflexivity.
  Qed.

  Lemma ab_halts_gen order (w : world T St) : (1 <= order <= 5)%Z -> (order = 1%Z \/ started order w) ->
    exists fuel w' sol, adams_bashforth fuel F t0 t1 y0 order dt w = (w', Ok sol).
  Proof.
    intros Ho Hst.
    assert (Hb : started order w) by (destruct Hst as [->|Hst]; [exists 0%nat, w; intros f _; reflexivity|exact Hst]).
    destruct Hb as (f1 & w1 & Hb).
    destruct (loaded (length y0) t0 h y0 (Z.to_nat order) order ltac:(lia) ltac:(lia) eq_refl) as (b0 & b & Hm & Hl & HI).
    destruct (ab_loop F (length y0) HF t0 t1 h N HN order _ w1 Ho HI) as (f2 & w2 & r & Hw).
    exists (Nat.max f1 f2), w2, (BasicOutput SUCCESS (ms_ts r) (ms_ys r)). unfold adams_bashforth. cbv zeta. fold (fitted_step t0 t1 dt). fold h.
    rewrite (bind_run (assert_ ndebug (h >?. sZ 0)%sc) _ w w tt) by (unfold assert_; rewrite Hh; destruct ndebug; reflexivity).
    rewrite (bind_run (lift (cb_make [] order)) _ w w b0) by (unfold lift; rewrite Hm; reflexivity).
    rewrite (bind_run _ _ _ _ _ (Hb (Nat.max f1 f2) (Nat.le_max_l _ _))).
    rewrite (bind_run (lift (load_history (grid (Z.to_nat order) t0 h, repeat y0 (Z.to_nat order)) b0)) _ w1 w1 _) by (unfold lift; rewrite Hl; reflexivity).
    cbn [fst snd]. rewrite (bind_run _ _ _ _ _ (while_more _ _ f2 (Nat.max f1 f2) _ _ _ _ (Nat.le_max_r _ _) Hw)). reflexivity.
  Qed.

  Lemma bdf_halts_gen order (w : world T St) : (1 <= order <= 6)%Z -> started (order + 1) w ->
    (forall t y s, length y = length y0 -> exists s' J, f_jac F t y s = (s', Ok J) /\ nrows J = length y0 /\ ncols J = length y0) ->
    exists fuel w' sol, bdf fuel F t0 t1 y0 order dt w = (w', Ok sol).
  Proof.
    intros Ho Hst HJ.
    destruct Hst as (f1 & w1 & Hb). replace (Z.to_nat (order + 1)) with (S (Z.to_nat order)) in Hb by lia.
    destruct (loaded (length y0) t0 h y0 (S (Z.to_nat order)) (order + 1) ltac:(lia) ltac:(lia) eq_refl) as (b0 & b & Hm & Hl & HI).
    destruct (bdf_loop F (length y0) HF t0 t1 h N HN HJ order _ w1 Ho HI) as (f2 & w2 & r & Hw).
    exists (Nat.max f1 f2), w2, (match r with inl r => BasicOutput SUCCESS (ms_ts r) (ms_ys r) | inr out => out end). unfold bdf.
    rewrite Z.gtb_ltb. destruct (Z.ltb_spec 6 order); [lia|]. destruct (Z.leb_spec order 0); [lia|]. cbv zeta. fold (fitted_step t0 t1 dt). fold h.
    rewrite (bind_run (assert_ ndebug (h >?. sZ 0)%sc) _ w w tt) by (unfold assert_; rewrite Hh; destruct ndebug; reflexivity).
    rewrite (bind_run (lift (cb_make [] (order + 1))) _ w w b0) by (unfold lift; rewrite Hm; reflexivity).
    rewrite (bind_run _ _ _ _ _ (Hb (Nat.max f1 f2) (Nat.le_max_l _ _))).
    rewrite (bind_run (lift (load_history (grid (S (Z.to_nat order)) t0 h, repeat y0 (S (Z.to_nat order))) b0)) _ w1 w1 _) by (unfold lift; rewrite Hl; reflexivity).
    cbn [fst snd]. rewrite (bind_run _ _ _ _ _ (while_more _ _ f2 (Nat.max f1 f2) _ _ _ _ (Nat.le_max_r _ _) Hw)). destruct r; reflexivity.
  Qed.
End Gen.

(** ** Adding a positive double *)
Lemma positive_sign (h : f64) : 0 < B2R h -> Bsign h = false.
Proof. destruct h as [s|s| |[|] m e H]; simpl; try lra; try reflexivity. intros K. exfalso. assert (F2R (Float radix2 (Z.neg m) e) <= 0) by (apply F2R_le_0; simpl; lia). lra. Qed.
Lemma plus_cases (t h : f64) : is_finite t = true -> is_finite h = true -> 0 < B2R h ->
  Bplus mode_NE t h = B754_infinity false \/ (is_finite (Bplus mode_NE t h) = true /\ B2R (Bplus mode_NE t h) = rnd64 (B2R t + B2R h) /\ B2R t <= B2R (Bplus mode_NE t h)).
Proof.
  intros Ft Fh Ph. pose proof (Bplus_correct 53 1024 _ _ mode_NE t h Ft Fh) as C. fold (rnd64 (B2R t + B2R h)) in C.
  destruct (Rlt_bool _ _).
  - right. destruct C as (C1 & C2 & _). fold (rnd64 (B2R t + B2R h)) in C1. split; [exact C2|]. split; [exact C1|]. rewrite C1. rewrite <- (rnd64_id t) at 1. apply rnd64_mono. lra.
  - left. destruct C as [C1 C2]. rewrite C2, (positive_sign h Ph) in C1. destruct (Bplus mode_NE t h); try discriminate C1. simpl in C1. injection C1 as ->. reflexivity.
Qed.
Definition past (t1 t : f64) : Prop := t = B754_infinity false \/ (is_finite t = true /\ B2R t1 <= B2R t).
Lemma past_ltb (t1 t : f64) : is_finite t1 = true -> past t1 t -> Bltb t t1 = false.
Proof.
  intros F1 [->|[Ft H]]; [destruct t1 as [s|s| |s m e Hm]; try discriminate; [reflexivity|destruct s; reflexivity]|].
  rewrite Bltb_correct by assumption. apply Rlt_bool_false, H.
Qed.
Lemma past_step (t1 t h : f64) : past t1 t -> is_finite h = true -> 0 < B2R h -> past t1 (Bplus mode_NE t h).
Proof.
  intros [->|[Ft H]] Fh Ph; [left; destruct h; try discriminate; reflexivity|].
  destruct (plus_cases t h Ft Fh Ph) as [E|(E1 & _ & E3)]; [left; exact E|right; split; [exact E1|lra]].
Qed.

Section Clock.
  Context (pw : f64 -> f64 -> f64).
  Let HS := F64Scalar pw.
  Existing Instance HS.
  Variables (t0 t1 : f64).
  Hypothesis F0 : is_finite t0 = true.
  Hypothesis F1 : is_finite t1 = true.
  Hypothesis B0 : Rabs (B2R t0) <= big.
  Hypothesis B1 : Rabs (B2R t1) <= big.
  Hypothesis H01 : B2R t0 < B2R t1.

  Lemma gtime_S (t h : f64) i : gtime t h (S i) = Bplus mode_NE (gtime t h i) h.
  Proof. reflexivity. Qed.
  Lemma past_later (h : f64) i k : is_finite h = true -> 0 < B2R h -> past t1 (gtime t0 h i) -> past t1 (gtime t0 h (k + i)).
  Proof. intros Fh Ph Hp. induction k as [|k IH]; [exact Hp|]. rewrite Nat.add_succ_l, gtime_S. apply past_step; assumption. Qed.

  Lemma advance (d : f64) i : is_finite d = true -> 0 < B2R d -> bpow radix2 (-52) * Rmax (Rabs (B2R t0)) (Rabs (B2R t1)) <= B2R d ->
    past t1 (gtime t0 d i) \/ (is_finite (gtime t0 d i) = true /\ B2R t0 + INR i * (B2R d / 2) <= B2R (gtime t0 d i) < B2R t1).
  Proof.
    intros Fd Pd Hd. induction i as [|i IH]; [right; split; [exact F0|simpl; lra]|]. rewrite gtime_S.
    destruct IH as [IH|[Ft [Ht Hl]]]; [left; apply past_step; assumption|]. set (t := gtime t0 d i) in * . clearbody t.
    destruct (plus_cases t d Ft Fd Pd) as [E|(E1 & E2 & E3)]; [left; left; exact E|].
    destruct (Rle_or_lt (B2R t1) (B2R (Bplus mode_NE t d))) as [Hp|Hp]; [left; right; split; assumption|right; split; [exact E1|split; [|exact Hp]]].
    destruct (sum_error_round t d) as (e & He & Hs). rewrite <- E2 in Hs. set (t' := Bplus mode_NE t d) in * . rewrite S_INR.
    assert (Hi : 0 <= INR i * (B2R d / 2)) by (apply Rmult_le_pos; [apply pos_INR|lra]).
    assert (HM : Rabs (B2R t') <= Rmax (Rabs (B2R t0)) (Rabs (B2R t1))).
    { apply Rabs_le. pose proof (Rmax_l (Rabs (B2R t0)) (Rabs (B2R t1))). pose proof (Rmax_r (Rabs (B2R t0)) (Rabs (B2R t1))).
      pose proof (Rle_abs (B2R t1)). pose proof (Rle_abs (- B2R t0)) as Hm. rewrite Rabs_Ropp in Hm. lra. }
    assert (Hu2 : bpow radix2 (-52) = 2 * u64). { unfold u64. change (-52)%Z with (1 + -53)%Z. rewrite bpow_plus. reflexivity. }
    assert (Hx : Rabs (B2R t' * e) <= B2R d / 2).
    { rewrite Rabs_mult, Rmult_comm. apply Rle_trans with (u64 * Rmax (Rabs (B2R t0)) (Rabs (B2R t1))).
      - apply Rmult_le_compat; try apply Rabs_pos; assumption.
      - rewrite Hu2 in Hd. lra. }
    apply Rabs_def2' in Hx. lra.
  Qed.

  Lemma fitted_cut (d : f64) : Bltb t1 (Bplus mode_NE t0 d) = true -> fitted_step t0 t1 d = Bminus mode_NE t1 t0.
  Proof. exact (clip_cut pw t1 t0 d). Qed.
  Lemma fitted_full (d : f64) : Bltb t1 (Bplus mode_NE t0 d) = false -> fitted_step t0 t1 d = d.
  Proof. exact (clip_full pw t1 t0 d). Qed.
  Lemma minus_pos : is_finite (Bminus mode_NE t1 t0) = true /\ 0 < B2R (Bminus mode_NE t1 t0) <= 2 * (B2R t1 - B2R t0).
  Proof.
    apply Rabs_def2' in B0. apply Rabs_def2' in B1.
    destruct (minus_fin t1 t0 F1 F0 ltac:(apply Rabs_le; lra)) as [Fa Va]. split; [exact Fa|].
    destruct (diff_error t1 t0) as (e & He & Hr). rewrite Va, Hr. apply Rabs_def2' in He.
    assert (Hu : u64 <= / 4). { unfold u64. replace (/ 4) with (bpow radix2 (-2)) by (simpl; lra). apply bpow_le. lia. }
    split; [apply Rmult_lt_0_compat; lra|]. rewrite (Rmult_comm 2). apply Rmult_le_compat_l; lra.
  Qed.
  (** the step size used is positive and fits *)
  Lemma fitted_pos (d : f64) : Bltb (B754_zero false) d = true -> is_finite (fitted_step t0 t1 d) = true /\ 0 < B2R (fitted_step t0 t1 d).
  Proof.
    intros Hd. destruct (Bltb t1 (Bplus mode_NE t0 d)) eqn:Ec.
    - rewrite (fitted_cut d Ec). destruct minus_pos as (M1 & M2 & _). split; assumption.
    - rewrite (fitted_full d Ec).
      assert (Fd : is_finite d = true).
      { destruct d as [s|[|]| |s m e Hm]; try reflexivity; try discriminate Hd. exfalso. revert Ec.
        destruct t0 as [s0|s0| |s0 m0 e0 Hm0]; try discriminate F0; destruct t1 as [s1|s1| |[|] m1 e1 Hm1]; try discriminate F1; discriminate. }
      split; [exact Fd|]. rewrite Bltb_correct in Hd by (reflexivity || exact Fd). destruct (Rlt_bool_spec (B2R (B754_zero false : f64)) (B2R d)) as [H|]; [exact H|discriminate].
  Qed.

  Lemma clock_bound (d : f64) : is_finite d = true -> 0 < B2R d -> bpow radix2 (-52) * Rmax (Rabs (B2R t0)) (Rabs (B2R t1)) <= B2R d ->
    exists N, (forall i, Bltb (gtime t0 (fitted_step t0 t1 d) i) t1 = true -> (i < N)%nat) /\ INR N <= 2 * (B2R t1 - B2R t0) / B2R d + 2.
  Proof.
    intros Fd Pd Hd.
    assert (Hq : 0 <= 2 * (B2R t1 - B2R t0) / B2R d) by (apply Rmult_le_pos; [lra|]; apply Rlt_le, Rinv_0_lt_compat, Pd).
    destruct (Bltb t1 (Bplus mode_NE t0 d)) eqn:Ec.
    - exists 2%nat. split; [|simpl; lra]. rewrite (fitted_cut d Ec). intros i Hi. destruct (Nat.lt_ge_cases i 2) as [K|K]; [exact K|exfalso].
      destruct minus_pos as (M1 & M2 & _). destruct (clipped_step t0 t1 F1 B0 B1 t0 F0 ltac:(lra)) as (_ & _ & C3 & _ & _ & C6).
      assert (Hp : past t1 (gtime t0 (Bminus mode_NE t1 t0) 2)).
      { rewrite !gtime_S. change (gtime t0 (Bminus mode_NE t1 t0) 0) with t0. set (c := Bminus mode_NE t1 t0) in * . set (t' := Bplus mode_NE t0 c) in * .
        destruct (plus_cases t' c C3 M1 M2) as [E|(E1 & E2 & _)]; [left; exact E|right; split; [exact E1|]]. rewrite E2, <- (rnd64_id t1). apply rnd64_mono. exact C6. }
      apply (past_later _ 2 (i - 2) M1 M2) in Hp. replace (i - 2 + 2)%nat with i in Hp by lia. rewrite (past_ltb t1 _ F1 Hp) in Hi. discriminate.
    - rewrite (fitted_full d Ec). destruct (steps_needed (B2R t1 - B2R t0) (B2R d) Pd ltac:(lra)) as (N & N1 & N2). exists N. split; [|lra].
      intros i Hi. destruct (Nat.lt_ge_cases i N) as [K|K]; [exact K|exfalso].
      destruct (advance d i Fd Pd Hd) as [Hp|[_ Ha]]; [rewrite (past_ltb t1 _ F1 Hp) in Hi; discriminate|].
      apply le_INR in K. assert (INR N * (B2R d / 2) <= INR i * (B2R d / 2)) by (apply Rmult_le_compat_r; lra). lra.
  Qed.
End Clock.

Lemma sorted_seq {A} (R : A -> A -> Prop) (f : nat -> A) n : forall a, (forall i j, (a <= i < j)%nat -> (j < a + n)%nat -> R (f i) (f j)) -> StronglySorted R (map f (seq a n)).
Proof.
  induction n as [|n IH]; intros a Hr; cbn [seq map]; constructor.
  - apply IH. intros i j Hi Hj. apply Hr; lia.
  - apply Forall_forall. intros x Hx. apply in_map_iff in Hx. destruct Hx as (j & <- & Hj). apply in_seq in Hj. apply Hr; lia.
Qed.
Lemma bpow_double e : bpow radix2 (e + 1) = 2 * bpow radix2 e.
Proof. rewrite bpow_plus. simpl. lra. Qed.

Section Times.
  Context (pw : f64 -> f64 -> f64).
  Let HS := F64Scalar pw.
  Existing Instance HS.
  Variables (t0 t1 dt : f64).
  Hypothesis F0 : is_finite t0 = true.
  Hypothesis F1 : is_finite t1 = true.
  Hypothesis B0 : Rabs (B2R t0) <= bpow radix2 1000.
  Hypothesis B1 : Rabs (B2R t1) <= bpow radix2 1000.
  Hypothesis H01 : B2R t0 < B2R t1.
  Hypothesis Hdt : Bltb (B754_zero false) dt = true.
  Let h := fitted_step t0 t1 dt.

  Lemma below_big x : Rabs x <= bpow radix2 1000 -> Rabs x <= big.
  Proof. intros H. eapply Rle_trans; [exact H|]. apply bpow_le. lia. Qed.
  Lemma h_pos64 : is_finite h = true /\ 0 < B2R h.
  Proof. exact (fitted_pos pw t0 t1 F0 F1 (below_big _ B0) (below_big _ B1) H01 dt Hdt). Qed.
  Lemma h_bound : B2R h <= bpow radix2 1002.
  Proof.
    pose proof (bpow_double 1000) as E1. pose proof (bpow_double 1001) as E2. change (1000 + 1)%Z with 1001%Z in E1. change (1001 + 1)%Z with 1002%Z in E2.
    pose proof (bpow_gt_0 radix2 1000) as P. pose proof h_pos64 as [Fh Ph]. apply Rabs_def2' in B0 as B0'. apply Rabs_def2' in B1 as B1'.
    destruct (Bltb t1 (Bplus mode_NE t0 dt)) eqn:Ec.
    - refine (eq_ind _ (fun z : f64 => B2R z <= bpow radix2 1002) _ _ (eq_sym (fitted_cut pw t0 t1 dt Ec))).
      destruct (minus_pos t0 t1 F0 F1 (below_big _ B0) (below_big _ B1) H01) as (_ & _ & M). lra.
    - assert (Eh : h = dt) by exact (fitted_full pw t0 t1 dt Ec). rewrite Eh in * . clear Eh. destruct (plus_cases t0 dt F0 Fh Ph) as [E|(E1' & E2' & E3)].
      + exfalso. pose proof (ltb_inf t1 F1) as L. rewrite <- E in L. rewrite L in Ec. discriminate.
      + rewrite Bltb_correct in Ec by assumption. destruct (Rlt_bool_spec (B2R t1) (B2R (Bplus mode_NE t0 dt))) as [|Hle]; [discriminate|].
        destruct (sum_error_round t0 dt) as (e & He & Hs). rewrite <- E2' in Hs. set (s := B2R (Bplus mode_NE t0 dt)) in * .
        assert (Hx : Rabs (s * e) <= bpow radix2 1000 * 1).
        { rewrite Rabs_mult. apply Rmult_le_compat; try apply Rabs_pos; [apply Rabs_le; lra|]. eapply Rle_trans; [exact He|]. unfold u64. change 1 with (bpow radix2 0). apply bpow_le. lia. }
        apply Rabs_def2' in Hx. lra.
  Qed.

  Variables (k N : nat).
  Hypothesis Hk : (k <= 7)%nat.
  Hypothesis HN : forall i, (k <= i < N)%nat -> Bltb (gtime t0 h (i - 1)) t1 = true.
  Let e (i : nat) : Z := (1003 + Z.of_nat (Nat.min i 8))%Z.

  Lemma times_fin i : (i < N)%nat -> is_finite (gtime t0 h i) = true /\ B2R t0 <= B2R (gtime t0 h i) /\ Rabs (B2R (gtime t0 h i)) <= bpow radix2 (e i).
  Proof.
    pose proof h_pos64 as [Fh Ph]. pose proof h_bound as Hb.
    induction i as [|i IH]; intros Hi.
    - split; [exact F0|]. split; [simpl; lra|]. eapply Rle_trans; [exact B0|]. apply bpow_le. unfold e. lia.
    - destruct (IH ltac:(lia)) as (Ft & Ht & Hbt). change (gtime t0 h (S i)) with (Bplus mode_NE (gtime t0 h i) h).
      assert (Hs : Rabs (B2R (gtime t0 h i) + B2R h) <= bpow radix2 (e (S i))).
      { pose proof (bpow_double 1000) as E1. pose proof (bpow_double 1001) as E2. pose proof (bpow_double 1002) as E3.
        change (1000 + 1)%Z with 1001%Z in E1. change (1001 + 1)%Z with 1002%Z in E2. change (1002 + 1)%Z with 1003%Z in E3. pose proof (bpow_gt_0 radix2 1000) as P.
        eapply Rle_trans; [apply Rabs_triang|]. rewrite (Rabs_right (B2R h)) by lra.
        destruct (Nat.le_gt_cases k (S i)) as [K|K].
        - specialize (HN (S i) ltac:(lia)). replace (S i - 1)%nat with i in HN by lia. rewrite Bltb_correct in HN by assumption.
          destruct (Rlt_bool_spec (B2R (gtime t0 h i)) (B2R t1)) as [Hl|]; [|discriminate].
          apply Rle_trans with (bpow radix2 1003); [|apply bpow_le; unfold e; lia].
          assert (Rabs (B2R (gtime t0 h i)) <= bpow radix2 1000). { apply Rabs_def2' in B0. apply Rabs_def2' in B1. apply Rabs_le. lra. }
          lra.
        - replace (e (S i)) with (e i + 1)%Z by (unfold e; lia). rewrite bpow_double.
          assert (bpow radix2 1002 <= bpow radix2 (e i)) by (apply bpow_le; unfold e; lia). lra. }
      destruct (plus_fin _ h Ft Fh) as [Fp Vp].
      { eapply Rle_trans; [exact Hs|]. rewrite <- big_2. apply bpow_le. unfold e. lia. }
      split; [exact Fp|]. rewrite Vp. split; [|apply rnd64_abs; [unfold e; lia|exact Hs]].
      eapply Rle_trans; [exact Ht|]. rewrite <- (rnd64_id (gtime t0 h i)) at 1. apply rnd64_mono. lra.
  Qed.
  Lemma times_step i : (S i < N)%nat -> B2R (gtime t0 h i) <= B2R (gtime t0 h (S i)) /\
    Rabs (B2R (gtime t0 h (S i)) - (B2R (gtime t0 h i) + B2R h)) <= bpow radix2 (-53) * Rabs (B2R (gtime t0 h (S i))).
  Proof.
    intros Hi. pose proof h_pos64 as [Fh Ph]. destruct (times_fin i ltac:(lia)) as (Ft & _). destruct (times_fin (S i) Hi) as (Ft' & _). change (gtime t0 h (S i)) with (Bplus mode_NE (gtime t0 h i) h) in * .
    pose proof (plus_value _ h Ft Fh Ft') as V. split.
    - rewrite V. rewrite <- (rnd64_id (gtime t0 h i)) at 1. apply rnd64_mono. lra.
    - destruct (sum_error_round (gtime t0 h i) h) as (ep & He & Hs). rewrite <- V in Hs. rewrite Hs.
      match goal with |- Rabs ?x <= _ => replace x with (- (B2R (Bplus mode_NE (gtime t0 h i) h) * ep)) by ring end.
      rewrite Rabs_Ropp, Rabs_mult, Rmult_comm. apply Rmult_le_compat_r; [apply Rabs_pos|exact He].
  Qed.
  Lemma times_mono i j : (i <= j < N)%nat -> B2R (gtime t0 h i) <= B2R (gtime t0 h j).
  Proof.
    intros [H1 H2]. induction j as [|j IH]; [replace i with 0%nat by lia; lra|]. destruct (Nat.eq_dec i (S j)) as [->|Hne]; [lra|].
    eapply Rle_trans; [apply IH; lia|]. apply times_step. exact H2.
  Qed.
  Lemma clock_holds : (1 <= k <= N)%nat -> clock_in_doubles k t0 t1 h (grid N t0 h).
  Proof.
    intros HkN. unfold clock_in_doubles. cbv zeta. rewrite (grid_length N).
    assert (Hnth : forall i, (i < N)%nat -> nth i (grid N t0 h) t0 = gtime t0 h i) by (intros i Hi; apply grid_nth, Hi).
    split; [|split; [|split]].
    - apply Forall_forall. intros t Ht. apply in_map_iff in Ht. destruct Ht as (i & <- & Hi). apply in_seq in Hi. apply times_fin. lia.
    - apply sorted_seq. intros i j Hi Hj. apply times_mono. lia.
    - intros i Hi. rewrite !Hnth by lia. set (M := Rmax (Rabs (B2R t0)) (Rabs (B2R (gtime t0 h (N - 1))))).
      assert (HM : forall j, (j < N)%nat -> Rabs (B2R (gtime t0 h j)) <= M).
      { intros j Hj. pose proof (times_mono j (N - 1) ltac:(lia)) as M1. destruct (times_fin j Hj) as (_ & M2 & _).
        pose proof (Rmax_l (Rabs (B2R t0)) (Rabs (B2R (gtime t0 h (N - 1))))) as X1. pose proof (Rmax_r (Rabs (B2R t0)) (Rabs (B2R (gtime t0 h (N - 1))))) as X2. fold M in X1, X2.
        pose proof (Rle_abs (B2R (gtime t0 h (N - 1)))) as A1. pose proof (Rle_abs (- B2R t0)) as A2. rewrite Rabs_Ropp in A2. apply Rabs_le. lra. }
      induction i as [|i IH]; [simpl; rewrite Rminus_diag_eq, Rabs_R0 by ring; lra|]. specialize (IH ltac:(lia)). destruct (times_step i Hi) as [_ Hs].
      assert (Hu : bpow radix2 (-53) * Rabs (B2R (gtime t0 h (S i))) <= bpow radix2 (-53) * M) by (apply Rmult_le_compat_l; [apply bpow_ge_0|apply HM, Hi]).
      rewrite S_INR. apply Rabs_def2' in IH. apply Rabs_def2' in Hs. apply Rabs_le. lra.
    - destruct (Nat.eq_dec N k) as [E|E]; [left; exact E|right]. rewrite Hnth by lia. assert (K : (k <= N - 1 < N)%nat) by lia.
      pose proof (HN _ K) as L. destruct (times_fin (N - 1 - 1) ltac:(lia)) as (Ft & _). rewrite Bltb_correct in L by assumption.
      destruct (Rlt_bool_spec (B2R (gtime t0 h (N - 1 - 1))) (B2R t1)) as [Hl|]; [|discriminate].
      destruct (times_step (N - 1 - 1) ltac:(lia)) as [_ Hs]. replace (S (N - 1 - 1)) with (N - 1)%nat in Hs by lia. apply Rabs_def2' in Hs. lra.
  Qed.
End Times.

Section Final.
  Context (pw : f64 -> f64 -> f64).
  Let HS := F64Scalar pw.
  Existing Instance HS.
  Context (HL : LinAlg f64) (HE : Env f64) (St : Type) (F : functor f64 St).

  Lemma ab_times64 fuel (t0 t1 : f64) y0 order (dt : f64) w w' sol :
    is_finite t0 = true -> is_finite t1 = true -> Rabs (B2R t0) <= bpow radix2 1000 -> Rabs (B2R t1) <= bpow radix2 1000 ->
    B2R t0 < B2R t1 -> Bltb (B754_zero false) dt = true -> (order <= 5)%Z -> adams_bashforth fuel F t0 t1 y0 order dt w = (w', Ok sol) ->
    clock_in_doubles (Z.to_nat order) t0 t1 (fitted_step t0 t1 dt) (bo_t_vals sol) /\ B2R t1 <= B2R (last (bo_t_vals sol) t0).
  Proof.
    intros F0 F1 B0 B1 H01 Hd Ho Hr. destruct (ab_starting fuel F t0 t1 y0 order dt w w' sol Hr) as (Ho1 & Hk & _).
    destruct (ab_grid fuel F t0 t1 y0 order dt w w' sol Hr) as (_ & Eg & He & Hs). set (N := length (bo_y_vals sol)) in * .
    assert (Hn : forall i, (Z.to_nat order <= i < N)%nat -> Bltb (gtime t0 (fitted_step t0 t1 dt) (i - 1)) t1 = true) by exact Hs.
    rewrite Eg. split; [apply (clock_holds pw t0 t1 dt F0 F1 B0 B1 H01 Hd (Z.to_nat order) N ltac:(lia) Hn); lia|].
    destruct (times_fin pw t0 t1 dt F0 F1 B0 B1 H01 Hd (Z.to_nat order) N ltac:(lia) Hn (N - 1) ltac:(lia)) as (Ft & _).
    assert (El : last (grid N t0 (fitted_step t0 t1 dt)) t0 = gtime t0 (fitted_step t0 t1 dt) (N - 1)).
    { replace N with (S (N - 1)) at 1 by lia. rewrite grid_snoc, last_last. reflexivity. }
    rewrite El. change (Bltb (gtime t0 (fitted_step t0 t1 dt) (N - 1)) t1 = false) in He. rewrite Bltb_correct in He by assumption.
    match type of He with Rlt_bool ?a ?b = _ => destruct (Rlt_bool_spec a b) as [|Hle]; [discriminate|exact Hle] end.
  Qed.
  Lemma bdf_times64 fuel (t0 t1 : f64) y0 order (dt : f64) w w' sol :
    is_finite t0 = true -> is_finite t1 = true -> Rabs (B2R t0) <= bpow radix2 1000 -> Rabs (B2R t1) <= bpow radix2 1000 ->
    B2R t0 < B2R t1 -> Bltb (B754_zero false) dt = true -> (1 <= order <= 6)%Z -> bdf fuel F t0 t1 y0 order dt w = (w', Ok sol) ->
    clock_in_doubles (S (Z.to_nat order)) t0 t1 (fitted_step t0 t1 dt) (bo_t_vals sol) /\
    (bo_status sol = SUCCESS /\ B2R t1 <= B2R (last (bo_t_vals sol) t0) \/ bo_status sol = INTERNAL_SOLVE_FAILURE /\ B2R (last (bo_t_vals sol) t0) < B2R t1).
  Proof.
    intros F0 F1 B0 B1 H01 Hd Ho Hr. destruct (bdf_starting fuel F t0 t1 y0 order dt w w' sol Hr Ho) as (Hk & _).
    destruct (bdf_grid fuel F t0 t1 y0 order dt w w' sol Hr Ho) as (Eg & Hs & He). set (N := length (bo_y_vals sol)) in * .
    assert (Hn : forall i, (S (Z.to_nat order) <= i < N)%nat -> Bltb (gtime t0 (fitted_step t0 t1 dt) (i - 1)) t1 = true) by exact Hs.
    rewrite Eg. split; [apply (clock_holds pw t0 t1 dt F0 F1 B0 B1 H01 Hd (S (Z.to_nat order)) N ltac:(lia) Hn); lia|].
    destruct (times_fin pw t0 t1 dt F0 F1 B0 B1 H01 Hd (S (Z.to_nat order)) N ltac:(lia) Hn (N - 1) ltac:(lia)) as (Ft & _).
    assert (El : last (grid N t0 (fitted_step t0 t1 dt)) t0 = gtime t0 (fitted_step t0 t1 dt) (N - 1)).
    { replace N with (S (N - 1)) at 1 by lia. rewrite grid_snoc, last_last. reflexivity. }
    rewrite El. destruct He as [[E1 E2]|[E1 E2]]; [left|right]; (split; [exact E1|]);
      [change (Bltb (gtime t0 (fitted_step t0 t1 dt) (N - 1)) t1 = false) in E2|change (Bltb (gtime t0 (fitted_step t0 t1 dt) (N - 1)) t1 = true) in E2];
      rewrite Bltb_correct in E2 by assumption; match type of E2 with Rlt_bool ?a ?b = _ => destruct (Rlt_bool_spec a b); [try discriminate E2; assumption|try discriminate E2; assumption] end.
  Qed.

  (** returning *)
  Lemma pos_step (t0 t1 dt : f64) : is_finite t0 = true -> is_finite t1 = true -> is_finite dt = true -> Rabs (B2R t0) <= bpow radix2 1022 -> Rabs (B2R t1) <= bpow radix2 1022 ->
    B2R t0 < B2R t1 -> 0 < B2R dt -> (fitted_step t0 t1 dt >?. sZ 0)%sc = true.
  Proof.
    intros F0 F1 Fd B0 B1 H01 Pd. destruct (fitted_pos pw t0 t1 F0 F1 B0 B1 H01 dt (pos_ltb dt Fd Pd)) as [Fh Ph]. exact (pos_ltb _ Fh Ph).
  Qed.
  Lemma ab_returns64 (t0 t1 : f64) y0 order (dt : f64) w : returns_dim F (length y0) ->
    is_finite t0 = true -> is_finite t1 = true -> is_finite dt = true -> Rabs (B2R t0) <= bpow radix2 1022 -> Rabs (B2R t1) <= bpow radix2 1022 ->
    B2R t0 < B2R t1 -> 0 < B2R dt -> bpow radix2 (-52) * Rmax (Rabs (B2R t0)) (Rabs (B2R t1)) <= B2R dt ->
    (1 <= order <= 5)%Z -> (order = 1%Z \/ exists t1' fuel0 w0 sol0, fitted_step t0 t1' dt = fitted_step t0 t1 dt /\ adams_bashforth fuel0 F t0 t1' y0 order dt w = (w0, Ok sol0)) ->
    exists fuel w' sol, adams_bashforth fuel F t0 t1 y0 order dt w = (w', Ok sol) /\
    INR (length (bo_t_vals sol)) <= Rmax (IZR order) (2 * (B2R t1 - B2R t0) / B2R dt + 3).
  Proof.
    intros HF F0 F1 Fd B0 B1 H01 Pd Hd Ho Hst. destruct (clock_bound pw t0 t1 F0 F1 B0 B1 H01 dt Fd Pd Hd) as (N & HN & HN2).
    assert (Hp : (fitted_step t0 t1 dt >?. sZ 0)%sc = true) by (apply pos_step; assumption).
    destruct (ab_halts_gen F t0 t1 dt y0 HF Hp N HN order w Ho ltac:(destruct Hst as [Hst|(t1' & f0 & w0 & s0 & Ef & Hst)]; [left; exact Hst|right; exact (ab_started F t0 t1 dt y0 t1' f0 order w w0 s0 Ef Hst)])) as (fuel & w' & sol & Hr). exists fuel, w', sol. split; [exact Hr|].
    destruct (ab_grid fuel F t0 t1 y0 order dt w w' sol Hr) as (_ & Eg & _ & Hs). rewrite Eg, grid_length. set (n := length (bo_y_vals sol)) in * .
    destruct (Nat.le_gt_cases n (Z.to_nat order)) as [K|K].
    - eapply Rle_trans; [|apply Rmax_l]. apply le_INR in K. rewrite (INR_IZR_INZ (Z.to_nat order)), Z2Nat.id in K by lia. exact K.
    - eapply Rle_trans; [|apply Rmax_r]. assert (L : (n - 1 - 1 < N)%nat) by (apply HN; apply (Hs (n - 1)%nat); lia).
      assert (L' : (n <= N + 1)%nat) by lia. apply le_INR in L'. rewrite plus_INR in L'. simpl in L'. lra.
  Qed.
  Lemma bdf_returns64 (t0 t1 : f64) y0 order (dt : f64) w : returns_dim F (length y0) ->
    (forall t y s, length y = length y0 -> exists s' J, f_jac F t y s = (s', Ok J) /\ nrows J = length y0 /\ ncols J = length y0) ->
    is_finite t0 = true -> is_finite t1 = true -> is_finite dt = true -> Rabs (B2R t0) <= bpow radix2 1022 -> Rabs (B2R t1) <= bpow radix2 1022 ->
    B2R t0 < B2R t1 -> 0 < B2R dt -> bpow radix2 (-52) * Rmax (Rabs (B2R t0)) (Rabs (B2R t1)) <= B2R dt ->
    (1 <= order <= 6)%Z -> (exists t1' fuel0 w0 sol0, fitted_step t0 t1' dt = fitted_step t0 t1 dt /\ bdf fuel0 F t0 t1' y0 order dt w = (w0, Ok sol0)) ->
    exists fuel w' sol, bdf fuel F t0 t1 y0 order dt w = (w', Ok sol) /\
    INR (length (bo_t_vals sol)) <= Rmax (IZR order + 1) (2 * (B2R t1 - B2R t0) / B2R dt + 3).
  Proof.
    intros HF HJ F0 F1 Fd B0 B1 H01 Pd Hd Ho Hst. destruct (clock_bound pw t0 t1 F0 F1 B0 B1 H01 dt Fd Pd Hd) as (N & HN & HN2).
    assert (Hp : (fitted_step t0 t1 dt >?. sZ 0)%sc = true) by (apply pos_step; assumption).
    destruct Hst as (t1' & f0 & w0 & s0 & Ef & Hst). destruct (bdf_halts_gen F t0 t1 dt y0 HF Hp N HN order w Ho (bdf_started F t0 t1 dt y0 t1' f0 order w w0 s0 Ef Ho Hst) HJ) as (fuel & w' & sol & Hr). exists fuel, w', sol. split; [exact Hr|].
    destruct (bdf_grid fuel F t0 t1 y0 order dt w w' sol Hr Ho) as (Eg & Hs & _). rewrite Eg, grid_length. set (n := length (bo_y_vals sol)) in * .
    destruct (Nat.le_gt_cases n (S (Z.to_nat order))) as [K|K].
    - eapply Rle_trans; [|apply Rmax_l]. apply le_INR in K. rewrite S_INR, (INR_IZR_INZ (Z.to_nat order)), Z2Nat.id in K by lia. exact K.
    - eapply Rle_trans; [|apply Rmax_r]. assert (L : (n - 1 - 1 < N)%nat) by (apply HN; apply (Hs (n - 1)%nat); lia).
      assert (L' : (n <= N + 1)%nat) by lia. apply le_INR in L'. rewrite plus_INR in L'. simpl in L'. lra.
  Qed.

  (** steps that are lost *)
  Lemma lost_grid (t0 dt : f64) i : Bplus mode_NE t0 dt = t0 -> gtime t0 dt i = t0.
  Proof. intros E. induction i as [|i IH]; [reflexivity|]. change (Bplus mode_NE (gtime t0 dt i) dt = t0). rewrite IH. exact E. Qed.
  Lemma lost_fitted (t0 t1 dt : f64) : is_finite t0 = true -> is_finite t1 = true -> B2R t0 < B2R t1 -> Bplus mode_NE t0 dt = t0 -> fitted_step t0 t1 dt = dt.
  Proof. intros F0 F1 H01 E. apply fitted_full. rewrite E, Bltb_correct by assumption. apply Rlt_bool_false. lra. Qed.
  Lemma ab_stuck64 fuel (t0 t1 : f64) y0 order (dt : f64) w w' sol :
    is_finite t0 = true -> is_finite t1 = true -> is_finite dt = true -> Rabs (B2R t0) <= bpow radix2 1022 -> B2R t0 < B2R t1 ->
    0 < B2R dt <= bpow radix2 (-55) * Rabs (B2R t0) -> adams_bashforth fuel F t0 t1 y0 order dt w <> (w', Ok sol).
  Proof.
    intros F0 F1 Fd B0 H01 Hd Hr. pose proof (lost64 t0 dt F0 Fd B0 Hd) as Hl.
    destruct (ab_grid fuel F t0 t1 y0 order dt w w' sol Hr) as (_ & _ & He & _). rewrite (lost_fitted t0 t1 dt F0 F1 H01 Hl), lost_grid in He by exact Hl.
    change (Bltb t0 t1 = false) in He. rewrite Bltb_correct in He by assumption. destruct (Rlt_bool_spec (B2R t0) (B2R t1)); [discriminate|lra].
  Qed.
  Lemma bdf_stuck64 fuel (t0 t1 : f64) y0 order (dt : f64) w w' sol :
    is_finite t0 = true -> is_finite t1 = true -> is_finite dt = true -> Rabs (B2R t0) <= bpow radix2 1022 -> B2R t0 < B2R t1 ->
    0 < B2R dt <= bpow radix2 (-55) * Rabs (B2R t0) -> bdf fuel F t0 t1 y0 order dt w = (w', Ok sol) -> bo_status sol <> SUCCESS.
  Proof.
    intros F0 F1 Fd B0 H01 Hd Hr. destruct (Z.le_gt_cases order 0) as [Ko|Ko]; [|destruct (Z.le_gt_cases order 6) as [Ko'|Ko']].
    - rewrite bdf_invalid in Hr by (left; exact Ko). injection Hr as _ <-. discriminate.
    - intros Es. pose proof (lost64 t0 dt F0 Fd B0 Hd) as Hl.
      destruct (bdf_grid fuel F t0 t1 y0 order dt w w' sol Hr ltac:(lia)) as (_ & _ & [[_ He]|[E _]]); [|rewrite Es in E; discriminate].
      rewrite (lost_fitted t0 t1 dt F0 F1 H01 Hl), lost_grid in He by exact Hl.
      change (Bltb t0 t1 = false) in He. rewrite Bltb_correct in He by assumption. destruct (Rlt_bool_spec (B2R t0) (B2R t1)); [discriminate|lra].
    - rewrite bdf_invalid in Hr by (right; lia). injection Hr as _ <-. discriminate.
  Qed.
End Final.

(** ** Runs: y' = -y^2 from 0, in steps of 2e-6 *)
From Verif Require Import Spec.ErkSpec Proofs.ErkExamples Proofs.MultistepExamples Proofs.MultistepCopy Proofs.ErkF64Times.
Lemma m4_fin : is_finite (mc_end 1) = true /\ is_finite (mc_end 2) = true /\ is_finite mg_dt = true. Proof. vm_compute. repeat split; reflexivity. Qed.
Lemma m4_lt : Bltb (mc_end 1) (f64_lit 1 0) = true /\ Bltb (mc_end 2) (f64_lit 1 0) = true /\ Bltb (f64_lit 0 0) (mc_end 1) = true /\ Bltb (f64_lit 0 0) (mc_end 2) = true /\
  Bltb (B754_zero false) mg_dt = true /\ Bltb (dyadic 1 (-52)) mg_dt = true /\ Bltb (f64_lit 0 0) mg_dt = true.
Proof. vm_compute. repeat split; reflexivity. Qed.
Lemma m4_lits : is_finite (f64_lit 0 0) = true /\ is_finite (f64_lit 1 0) = true. Proof. vm_compute. split; reflexivity. Qed.
Lemma m4_over : mc_over (mc_end 1) = false /\ mc_over (mc_end 2) = false. Proof. destruct mc_runs as (K1 & K2 & _). split; assumption. Qed.
Lemma m4_fitted : @fitted_step f64 mg_S (@sZ f64 mg_S 0) (mc_end 1) mg_dt = mg_dt /\ @fitted_step f64 mg_S (@sZ f64 mg_S 0) (mc_end 2) mg_dt = mg_dt.
Proof. destruct m4_over as [K1 K2]. split; apply fitted_full; assumption. Qed.
Definition m4_ab (order : Z) (t1 : f64) := @adams_bashforth f64 mg_S mg_LA (ex_E false) _ 60 mg_sq (@sZ f64 mg_S 0) t1 [@sZ f64 mg_S 1] order mg_dt (World tt []).
Definition m4_bdf (order : Z) (t1 : f64) := @bdf f64 mg_S mg_LA (ex_E false) _ 60 mg_sq (@sZ f64 mg_S 0) t1 [@sZ f64 mg_S 1] order mg_dt (World tt []).
Lemma m4_runs : mg_summary (m4_ab 3 (mc_end 1)) = Some (SUCCESS, 7, 7)%nat /\ mg_summary (m4_bdf 2 (mc_end 1)) = Some (SUCCESS, 7, 7)%nat.
Proof. vm_compute. split; reflexivity. Qed.
Lemma summary_ok {A} (r : A * res (basic_output f64)) a b c : mg_summary r = Some (a, b, c) -> exists w s, r = (w, Ok s) /\ bo_status s = a /\ length (bo_t_vals s) = b.
Proof. destruct r as [w [s|e]]; cbn; [|discriminate]. intros E. injection E as <- <- <-. exists w, s. split; [reflexivity|split; reflexivity]. Qed.
(** everything the theorems ask of the numbers *)
Lemma m4_numbers k : (k = 1 \/ k = 2)%Z -> is_finite (@sZ f64 mg_S 0) = true /\ is_finite (mc_end k) = true /\ is_finite mg_dt = true /\
  Rabs (B2R (@sZ f64 mg_S 0)) <= bpow radix2 1000 /\ Rabs (B2R (mc_end k)) <= bpow radix2 1000 /\ B2R (@sZ f64 mg_S 0) < B2R (mc_end k) /\ 0 < B2R mg_dt /\
  Bltb (B754_zero false) mg_dt = true /\ bpow radix2 (-52) * Rmax (Rabs (B2R (@sZ f64 mg_S 0))) (Rabs (B2R (mc_end k))) <= B2R mg_dt.
Proof.
  intros Hk. change (@sZ f64 mg_S 0) with (f64_lit 0 0). rewrite zero_value, Rabs_R0. destruct m4_fin as (F1 & F2 & F3). destruct m4_lt as (L1 & L2 & L3 & L4 & L5 & L6 & L7). destruct m4_lits as [Fz Fo].
  assert (Fk : is_finite (mc_end k) = true) by (destruct Hk as [->| ->]; assumption).
  assert (Lk : B2R (mc_end k) < 1) by (rewrite <- one_value; apply ltb_lt; [assumption|assumption|]; destruct Hk as [->| ->]; assumption).
  assert (Pk : 0 < B2R (mc_end k)) by (rewrite <- zero_value; apply ltb_lt; [assumption|assumption|]; destruct Hk as [->| ->]; assumption).
  assert (Pd : bpow radix2 (-52) < B2R mg_dt) by (rewrite <- (eps_value (dyadic 1 (-52))) by (vm_compute; reflexivity); exact (ltb_lt _ _ eps_finite F3 L6)).
  pose proof (bpow_gt_0 radix2 (-52)) as P52. rewrite (Rabs_right (B2R (mc_end k))) by lra. rewrite Rmax_right by lra.
  assert (P0 : 1 <= bpow radix2 1000) by (change 1 with (bpow radix2 0); apply bpow_le; lia).
  split; [exact Fz|]. split; [exact Fk|]. split; [exact F3|]. split; [lra|]. split; [lra|]. split; [lra|]. split; [lra|]. split; [exact L5|]. nra.
Qed.
Lemma m4_dim : returns_dim mg_sq 1.
Proof. intros t y s Hy. exists s. destruct y as [|a [|b y]]; try discriminate. eexists. split; reflexivity. Qed.
Lemma m4_jac t y s : length y = 1%nat -> exists s' J, f_jac mg_sq t y s = (s', Ok J) /\ nrows J = 1%nat /\ ncols J = 1%nat.
Proof. intros Hy. destruct y as [|a [|b y]]; try discriminate. eexists _, _. split; [reflexivity|]. split; reflexivity. Qed.

Lemma o35 : (3 <= 5)%Z. Proof. lia. Qed.
Lemma o135 : (1 <= 3 <= 5)%Z. Proof. lia. Qed.
Lemma o126 : (1 <= 2 <= 6)%Z. Proof. lia. Qed.
Definition m4_pow : f64 -> f64 -> f64 := fun _ _ => f64_lit 4 0.
Lemma m4_ab_eq order t1 : m4_ab order t1 = @adams_bashforth f64 (F64Scalar m4_pow) mg_LA (ex_E false) _ 60 mg_sq (@sZ f64 mg_S 0) t1 [@sZ f64 mg_S 1] order mg_dt (World tt []).
Proof. reflexivity. Qed.
Lemma m4_bdf_eq order t1 : m4_bdf order t1 = @bdf f64 (F64Scalar m4_pow) mg_LA (ex_E false) _ 60 mg_sq (@sZ f64 mg_S 0) t1 [@sZ f64 mg_S 1] order mg_dt (World tt []).
Proof. reflexivity. Qed.
Lemma m4_fitted' : @fitted_step f64 (F64Scalar m4_pow) (@sZ f64 mg_S 0) (mc_end 1) mg_dt = mg_dt /\ @fitted_step f64 (F64Scalar m4_pow) (@sZ f64 mg_S 0) (mc_end 2) mg_dt = mg_dt.
Proof. exact m4_fitted. Qed.
Lemma use_ab w s : m4_ab 3 (mc_end 1) = (w, Ok s) -> clock_in_doubles 3 (@sZ f64 mg_S 0) (mc_end 1) mg_dt (bo_t_vals s).
Proof.
  intros E1. destruct (m4_numbers 1 (or_introl eq_refl)) as (F0 & F1 & Fd & B0 & B1 & H01 & Pd & Ld & _). rewrite m4_ab_eq in E1. destruct m4_fitted' as [Ef _].
  pose proof (@ab_times64 m4_pow mg_LA (ex_E false) unit mg_sq 60 (@sZ f64 mg_S 0) (mc_end 1) [@sZ f64 mg_S 1] 3 mg_dt (World tt []) w s F0 F1 B0 B1 H01 Ld o35 E1) as [K _].
  exact (eq_ind _ (fun z : f64 => clock_in_doubles 3 (@sZ f64 mg_S 0) (mc_end 1) z (bo_t_vals s)) K _ Ef).
Qed.
Lemma use_bdf w s : m4_bdf 2 (mc_end 1) = (w, Ok s) -> clock_in_doubles 3 (@sZ f64 mg_S 0) (mc_end 1) mg_dt (bo_t_vals s).
Proof.
  intros E1. destruct (m4_numbers 1 (or_introl eq_refl)) as (F0 & F1 & Fd & B0 & B1 & H01 & Pd & Ld & _). rewrite m4_bdf_eq in E1. destruct m4_fitted' as [Ef _].
  pose proof (@bdf_times64 m4_pow mg_LA (ex_E false) unit mg_sq 60 (@sZ f64 mg_S 0) (mc_end 1) [@sZ f64 mg_S 1] 2 mg_dt (World tt []) w s F0 F1 B0 B1 H01 Ld o126 E1) as [K _].
  exact (eq_ind _ (fun z : f64 => clock_in_doubles 3 (@sZ f64 mg_S 0) (mc_end 1) z (bo_t_vals s)) K _ Ef).
Qed.
Lemma times64_example : exists w s w' s', m4_ab 3 (mc_end 1) = (w, Ok s) /\ m4_bdf 2 (mc_end 1) = (w', Ok s') /\ length (bo_t_vals s) = 7%nat /\ length (bo_t_vals s') = 7%nat /\
  clock_in_doubles 3 (@sZ f64 mg_S 0) (mc_end 1) mg_dt (bo_t_vals s) /\ clock_in_doubles 3 (@sZ f64 mg_S 0) (mc_end 1) mg_dt (bo_t_vals s').
Proof.
  destruct m4_runs as [R1 R2]. destruct (summary_ok _ _ _ _ R1) as (w & s & E1 & _ & L1). destruct (summary_ok _ _ _ _ R2) as (w' & s' & E2 & _ & L2).
  exists w, s, w', s'. split; [exact E1|]. split; [exact E2|]. split; [exact L1|]. split; [exact L2|]. split; [exact (use_ab w s E1)|exact (use_bdf w' s' E2)].
Qed.
Lemma fit_eq : @fitted_step f64 (F64Scalar m4_pow) (@sZ f64 mg_S 0) (mc_end 1) mg_dt = @fitted_step f64 (F64Scalar m4_pow) (@sZ f64 mg_S 0) (mc_end 2) mg_dt.
Proof. destruct m4_fitted' as [E1 E2]. exact (eq_trans E1 (eq_sym E2)). Qed.
Lemma to_big x : Rabs x <= bpow radix2 1000 -> Rabs x <= bpow radix2 1022.
Proof. intros H. eapply Rle_trans; [exact H|]. apply bpow_le. lia. Qed.
Lemma longer_ab w s : m4_ab 3 (mc_end 1) = (w, Ok s) -> exists fuel w' s',
  @adams_bashforth f64 (F64Scalar m4_pow) mg_LA (ex_E false) _ fuel mg_sq (@sZ f64 mg_S 0) (mc_end 2) [@sZ f64 mg_S 1] 3 mg_dt (World tt []) = (w', Ok s').
Proof.
  intros E1. rewrite m4_ab_eq in E1. destruct (m4_numbers 2 (or_intror eq_refl)) as (F0 & F1 & Fd & B0 & B1 & H01 & Pd & _ & Hd).
  destruct (@ab_returns64 m4_pow mg_LA (ex_E false) unit mg_sq (@sZ f64 mg_S 0) (mc_end 2) [@sZ f64 mg_S 1] 3 mg_dt (World tt []) m4_dim F0 F1 Fd (to_big _ B0) (to_big _ B1) H01 Pd Hd o135
    (or_intror (ex_intro _ (mc_end 1) (ex_intro _ 60%nat (ex_intro _ w (ex_intro _ s (conj fit_eq E1))))))) as (fu & v & q & K & _).
  exists fu, v, q. exact K.
Qed.
Lemma longer_bdf w s : m4_bdf 2 (mc_end 1) = (w, Ok s) -> exists fuel w' s',
  @bdf f64 (F64Scalar m4_pow) mg_LA (ex_E false) _ fuel mg_sq (@sZ f64 mg_S 0) (mc_end 2) [@sZ f64 mg_S 1] 2 mg_dt (World tt []) = (w', Ok s').
Proof.
  intros E1. rewrite m4_bdf_eq in E1. destruct (m4_numbers 2 (or_intror eq_refl)) as (F0 & F1 & Fd & B0 & B1 & H01 & Pd & _ & Hd).
  destruct (@bdf_returns64 m4_pow mg_LA (ex_E false) unit mg_sq (@sZ f64 mg_S 0) (mc_end 2) [@sZ f64 mg_S 1] 2 mg_dt (World tt []) m4_dim m4_jac F0 F1 Fd (to_big _ B0) (to_big _ B1) H01 Pd Hd o126
    (ex_intro _ (mc_end 1) (ex_intro _ 60%nat (ex_intro _ w (ex_intro _ s (conj fit_eq E1)))))) as (fu & v & q & K & _).
  exists fu, v, q. exact K.
Qed.
Lemma returns64_example : exists fuel w s fuel' w' s',
  @adams_bashforth f64 (F64Scalar m4_pow) mg_LA (ex_E false) _ fuel mg_sq (@sZ f64 mg_S 0) (mc_end 2) [@sZ f64 mg_S 1] 3 mg_dt (World tt []) = (w, Ok s) /\
  @bdf f64 (F64Scalar m4_pow) mg_LA (ex_E false) _ fuel' mg_sq (@sZ f64 mg_S 0) (mc_end 2) [@sZ f64 mg_S 1] 2 mg_dt (World tt []) = (w', Ok s').
Proof.
  destruct m4_runs as [R1 R2]. destruct (summary_ok _ _ _ _ R1) as (w & s & E1 & _). destruct (summary_ok _ _ _ _ R2) as (w' & s' & E2 & _).
  destruct (longer_ab w s E1) as (a & b & c & K1). destruct (longer_bdf w' s' E2) as (d & e & f & K2). exists a, b, c, d, e, f. split; [exact K1|exact K2].
Qed.
