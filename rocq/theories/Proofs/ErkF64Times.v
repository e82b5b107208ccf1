(** The times of an explicit run in doubles. *)
From Coq Require Import Reals Lra Sorted.
From Flocq Require Import Core IEEE754.BinarySingleNaN.
From Verif Require Import Model.Base Model.Scalar Model.LinAlg Model.Enums Model.Options Model.Coeffs Model.ErkCoeffs Model.Erk.
From Verif Require Import Spec.Observe Spec.ErkSpec Spec.F64Spec Proofs.ErkProofs Proofs.ErkRun Proofs.F64Steps.
Local Open Scope R_scope.

(** ** The step size controller keeps step sizes non-negative *)
Lemma nonneg_mult (x f : f64) : is_finite x = true -> 0 <= B2R x -> is_finite f = true -> 0 <= B2R f -> nonneg64 (Bmult mode_NE x f).
Proof.
  intros Fx Px Ff Pf. pose proof (Bmult_correct 53 1024 _ _ mode_NE x f) as C. fold (rnd64 (B2R x * B2R f)) in C.
  assert (P : 0 <= rnd64 (B2R x * B2R f)) by (apply rnd64_nonneg, Rmult_le_pos; assumption).
  destruct (Rlt_bool_spec (Rabs (rnd64 (B2R x * B2R f))) (bpow radix2 1024)) as [Hb|Hb].
  - destruct C as (C1 & C2 & _). fold (rnd64 (B2R x * B2R f)) in C1. apply nonneg_finite; [rewrite C2, Fx, Ff; reflexivity|rewrite C1; exact P].
  - assert (NZ : B2R x * B2R f <> 0).
    { intros E0. rewrite E0 in Hb. unfold rnd64 in Hb. rewrite round_0, Rabs_R0 in Hb by typeclasses eauto. pose proof (bpow_gt_0 radix2 1024). lra. }
    assert (Sx : forall z : f64, is_finite z = true -> 0 <= B2R z -> B2R z <> 0 -> Bsign z = false).
    { intros [s|s| |[|] m e He] Fz Pz Nz; try discriminate; [exfalso; apply Nz; reflexivity| |reflexivity].
      exfalso. apply Nz. apply Rle_antisym; [|exact Pz]. simpl. apply F2R_le_0. simpl. lia. }
    rewrite (Sx x Fx Px), (Sx f Ff Pf) in C by (intros Z; apply NZ; rewrite Z; ring). simpl in C.
    destruct (Bmult mode_NE x f) as [s|s| |s m e He]; simpl in C; try discriminate. injection C as ->. reflexivity.
Qed.
Lemma mult_below_one (c x : f64) : is_finite c = true -> 0 <= B2R c <= 1 -> is_finite x = true -> 0 <= B2R x ->
  is_finite (Bmult mode_NE c x) = true /\ 0 <= B2R (Bmult mode_NE c x).
Proof.
  intros Fc Pc Fx Px. pose proof (Bmult_correct 53 1024 _ _ mode_NE c x) as C. fold (rnd64 (B2R c * B2R x)) in C.
  assert (P : 0 <= rnd64 (B2R c * B2R x)) by (apply rnd64_nonneg, Rmult_le_pos; lra).
  assert (Q : rnd64 (B2R c * B2R x) <= B2R x) by (rewrite <- (rnd64_id x) at 2; apply rnd64_mono; rewrite <- (Rmult_1_l (B2R x)) at 2; apply Rmult_le_compat_r; lra).
  rewrite Rlt_bool_true in C.
  - destruct C as (C1 & C2 & _). fold (rnd64 (B2R c * B2R x)) in C1. rewrite C2, Fc, Fx, C1. auto.
  - rewrite Rabs_right by lra. eapply Rle_lt_trans; [exact Q|]. eapply Rle_lt_trans; [apply Rle_abs|]. apply abs_B2R_lt_emax.
Qed.
Lemma zero64 : f64_lit 0 0 = B754_zero false. Proof. reflexivity. Qed.
Lemma positive_nonneg (d : f64) : Bltb (B754_zero false) d = true -> nonneg64 d.
Proof.
  destruct d as [s|[|]| |[|] m e H]; try discriminate; intros _; simpl; auto. apply F2R_ge_0. simpl. lia.
Qed.
Lemma not_negative (d : f64) : Bltb d (B754_zero false) = false -> is_nan d = false -> nonneg64 d.
Proof.
  destruct d as [s|[|]| |[|] m e H]; try discriminate; intros _ _; simpl; auto; try lra. apply F2R_ge_0. simpl. lia.
Qed.
Lemma ltb_not_nan (a b : f64) : Bltb a b = true -> is_nan a = false.
Proof. destruct a; [reflexivity..| |reflexivity]. destruct b as [?|?| |? ? ? ?]; discriminate. Qed.
Lemma ltb_finite (a b : f64) : Bltb a b = true -> nonneg64 a -> is_finite a = true /\ 0 <= B2R a.
Proof.
  intros H Hn. destruct (nonneg_cases a Hn) as [->|K]; [|exact K]. exfalso. destruct b as [?|[|]| |[|] ? ? ?]; discriminate.
Qed.

Lemma sign_not_below (d : f64) : Bsign d = false -> Bltb d (B754_zero false) = false.
Proof. destruct d as [[|]|[|]| |[|] m e H]; simpl; try discriminate; reflexivity. Qed.
Definition machine_eps64 : f64 := f64_lit 1 (-17).
Lemma inverse_sign_gen (one eps e : f64) : Bsign one = false -> Bltb (B754_zero false) eps = true -> is_finite one = true -> B2R one <> 0 ->
  Bltb e eps = false -> Bsign (Bdiv mode_NE one e) = false.
Proof.
  intros S1 Hp F1 N1 H.
  assert (Ho : exists m1 e1 H1, one = B754_finite false m1 e1 H1).
  { destruct one as [s|s| |[|] m1 e1 H1]; try discriminate; [exfalso; apply N1; reflexivity|]. eauto. }
  destruct e as [s|[|]| |[|] m e He].
  - exfalso. destruct eps as [?|[|]| |[|] ? ? ?]; destruct s; try discriminate.
  - exfalso. destruct eps as [?|[|]| |[|] ? ? ?]; discriminate.
  - destruct Ho as (m1 & e1 & H1 & ->). reflexivity.
  - destruct Ho as (m1 & e1 & H1 & ->). reflexivity.
  - exfalso. destruct eps as [?|[|]| |[|] ? ? ?]; discriminate.
  - set (x := B754_finite false m e He) in * . assert (Nz : B2R x <> 0).
    { apply Rgt_not_eq. apply F2R_gt_0. simpl. lia. }
    pose proof (Bdiv_correct 53 1024 _ _ mode_NE one x Nz) as C. fold (rnd64 (B2R one / B2R x)) in C.
    rewrite S1 in C. change (Bsign x) with false in C. change (xorb false false) with false in C.
    destruct (Bdiv mode_NE one x) as [s|s| |s m' e' H'] eqn:E; [| |reflexivity|].
    + destruct (Rlt_bool _ _); [|simpl in C; discriminate]. destruct C as (_ & _ & C3). apply C3. reflexivity.
    + destruct (Rlt_bool _ _); [|simpl in C; injection C as ->; reflexivity]. destruct C as (_ & _ & C3). apply C3. reflexivity.
    + destruct (Rlt_bool _ _); [|simpl in C; discriminate]. destruct C as (_ & _ & C3). apply C3. reflexivity.
Qed.
Lemma one_sign : Bsign (f64_lit 1 0) = false. Proof. vm_compute. reflexivity. Qed.
Lemma one_finite : is_finite (f64_lit 1 0) = true. Proof. vm_compute. reflexivity. Qed.
Lemma one_positive : Bltb (B754_zero false) (f64_lit 1 0) = true. Proof. vm_compute. reflexivity. Qed.
Lemma four_finite : is_finite (f64_lit 4 0) = true. Proof. vm_compute. reflexivity. Qed.
Lemma four_positive : Bltb (B754_zero false) (f64_lit 4 0) = true. Proof. vm_compute. reflexivity. Qed.
Lemma eps_positive : Bltb (B754_zero false) machine_eps64 = true. Proof. vm_compute. reflexivity. Qed.
Lemma eps_not_below : Bltb machine_eps64 machine_eps64 = false. Proof. vm_compute. reflexivity. Qed.
Lemma nine_finite : is_finite (f64_lit 9 (-1)) = true. Proof. vm_compute. reflexivity. Qed.
Lemma nine_positive : Bltb (B754_zero false) (f64_lit 9 (-1)) = true. Proof. vm_compute. reflexivity. Qed.
Lemma nine_below : Bltb (f64_lit 9 (-1)) (f64_lit 1 0) = true. Proof. vm_compute. reflexivity. Qed.
Lemma ltb_lt (a b : f64) : is_finite a = true -> is_finite b = true -> Bltb a b = true -> B2R a < B2R b.
Proof. intros Fa Fb H. rewrite Bltb_correct in H by assumption. destruct (Rlt_bool_spec (B2R a) (B2R b)); [assumption|discriminate]. Qed.
Lemma one_value : B2R (f64_lit 1 0) = 1.
Proof.
  assert (E : match f64_lit 1 0 with B754_finite false m e _ => (Z.pos m =? 2 ^ 52)%Z && (e =? -52)%Z | _ => false end = true) by (vm_compute; reflexivity).
  destruct (f64_lit 1 0) as [?|?| |[|] m e He]; try discriminate. apply andb_prop in E. destruct E as [E1 E2]. apply Z.eqb_eq in E1, E2.
  change (F2R (Float radix2 (Z.pos m) e) = 1). rewrite E1, E2. unfold F2R. cbn [Fnum Fexp]. change (bpow radix2 (-52)) with (/ IZR (2 ^ 52)). apply Rinv_r. apply IZR_neq. discriminate.
Qed.
Lemma inverse_sign (e : f64) : Bltb e machine_eps64 = false -> Bsign (Bdiv mode_NE (f64_lit 1 0) e) = false.
Proof. apply (inverse_sign_gen (f64_lit 1 0) machine_eps64 e one_sign eps_positive one_finite). rewrite one_value. lra. Qed.

Section Controller.
  Context (pw : f64 -> f64 -> f64).
  Hypothesis Hpw : pow_keeps_sign pw.
  Let HS := F64Scalar pw.
  Existing Instance HS.
  Lemma nine_tenths : is_finite (f64_lit 9 (-1)) = true /\ 0 <= B2R (f64_lit 9 (-1)) <= 1.
  Proof.
    split; [exact nine_finite|]. split.
    - apply Rlt_le. exact (ltb_lt (B754_zero false) _ eq_refl nine_finite nine_positive).
    - apply Rlt_le. rewrite <- one_value. exact (ltb_lt _ _ nine_finite one_finite nine_below).
  Qed.
  Lemma four64 : is_finite (f64_lit 4 0) = true /\ 0 <= B2R (f64_lit 4 0).
  Proof. split; [exact four_finite|]. apply Rlt_le. exact (ltb_lt (B754_zero false) _ eq_refl four_finite four_positive). Qed.
  Lemma min_nonneg (a b : f64) : nonneg64 a -> nonneg64 b -> nonneg64 (smin a b).
  Proof. intros Ha Hb. unfold smin. destruct (sltb b a); assumption. Qed.
  Lemma new_dt_nonneg opts mo (e err dt : f64) : err = (if sltb e machine_precision then machine_precision else e) ->
    is_finite dt = true -> 0 <= B2R dt -> nonneg64 (erk_new_dt opts mo err dt).
  Proof.
    intros He Fd Pd. unfold erk_new_dt. cbv zeta.
    assert (Hs : Bsign (Bdiv mode_NE (f64_lit 1 0) err) = false).
    { apply inverse_sign. rewrite He. change (sltb e machine_precision) with (Bltb e machine_eps64). change machine_precision with machine_eps64.
      destruct (Bltb e machine_eps64) eqn:Ee; [exact eps_not_below|exact Ee]. }
    set (p := spow (sZ 1 /. err)%sc (sZ 1 /. (sZ 1 +. sZ mo))%sc).
    assert (Hp : Bltb p (B754_zero false) = false) by (apply sign_not_below, Hpw, Hs).
    set (f := smin (sZ 4) p).
    assert (Hf : is_finite f = true /\ 0 <= B2R f).
    { unfold f, smin. change (sltb p (sZ 4)) with (Bltb p (f64_lit 4 0)). destruct (Bltb p (f64_lit 4 0)) eqn:E4; [|exact four64].
      apply (ltb_finite _ _ E4). apply not_negative; [exact Hp|apply (ltb_not_nan _ _ E4)]. }
    destruct nine_tenths as [F9 P9]. destruct (mult_below_one (f64_lit 9 (-1)) dt F9 P9 Fd Pd) as [F2 P2].
    assert (Hm : nonneg64 (slit 9 (-1) *. dt *. f)%sc) by (apply nonneg_mult; tauto).
    destruct (eo_max_dt opts >?. sZ 0)%sc eqn:Em; [|exact Hm]. apply min_nonneg; [|exact Hm]. apply positive_nonneg. exact Em.
  Qed.
End Controller.

(** ** Runs *)
Section Run.
  Context (pw : f64 -> f64 -> f64).
  Let HS := F64Scalar pw.
  Existing Instance HS.
  Variables (t0 t1 : f64) (opts : erk_options f64) (mo : Z) (dt0 : f64) (atts : list (attempt f64)).
  Hypothesis A : attempts_ok t0 t1 opts mo dt0 atts.
  Hypothesis Hpw : eo_adaptive opts = true -> pow_keeps_sign pw.
  Hypothesis F0 : is_finite t0 = true.
  Hypothesis F1 : is_finite t1 = true.
  Hypothesis B0 : Rabs (B2R t0) <= bpow radix2 1022.
  Hypothesis B1 : Rabs (B2R t1) <= bpow radix2 1022.
  Hypothesis Hlt : Bltb t0 t1 = true.
  Hypothesis Hdt : Bltb (B754_zero false) dt0 = true.
  Let dta := dt_after t0 t1 opts mo dt0.
  Let over := B2R t1 + bpow radix2 (-52) * (B2R t1 - B2R t0 + Rabs (B2R t1)).

  Lemma t0_t1 : B2R t0 < B2R t1.
  Proof. rewrite Bltb_correct in Hlt by assumption. destruct (Rlt_bool_spec (B2R t0) (B2R t1)); [assumption|discriminate]. Qed.
  Lemma over_ge : B2R t1 <= over.
  Proof.
    pose proof t0_t1. pose proof (Rabs_pos (B2R t1)). pose proof (bpow_gt_0 radix2 (-52)). unfold over.
    assert (0 <= bpow radix2 (-52) * (B2R t1 - B2R t0 + Rabs (B2R t1))) by (apply Rmult_le_pos; lra). lra.
  Qed.
  Lemma firstn_S' {X} (l : list X) k a : nth_error l k = Some a -> firstn (S k) l = firstn k l ++ [a].
  Proof. revert k. induction l as [|x l IH]; intros [|k] H; simpl in *; try discriminate; [injection H as ->; reflexivity|]. rewrite (IH k H). reflexivity. Qed.

  Lemma times64_prefix k : (k <= length atts)%nat ->
    let ts := t0 :: map at_end (accepted (firstn k atts)) in
    nonneg64 (dta (firstn k atts)) /\
    Forall (fun t => is_finite t = true /\ B2R t0 <= B2R t <= over) ts /\
    StronglySorted (fun s t => B2R s <= B2R t) ts /\
    Forall (fun t => B2R t <= B2R (time_after t0 (firstn k atts))) ts /\
    Forall (fun t => B2R t < B2R t1) (removelast ts) /\
    is_finite (time_after t0 (firstn k atts)) = true /\ B2R t0 <= B2R (time_after t0 (firstn k atts)) <= over.
  Proof.
    pose proof t0_t1 as H01. pose proof over_ge as Hov. destruct A as [A1 A2 A3 A4 _ A6].
    induction k as [|k IH]; intros Hk; cbv zeta.
    - simpl. split.
      + destruct (step64 t0 t1 F1 B0 B1 t0 dt0 F0 (Rle_refl _) Hlt (positive_nonneg _ Hdt)) as (Fa & Pa & _).
        unfold dta, dt_after. simpl. apply nonneg_finite; [exact Fa|exact Pa].
      + repeat (split || constructor); try assumption; try apply Rle_refl; lra.
    - destruct (IH ltac:(lia)) as (I1 & I2 & I3 & I4 & I5 & I6 & I7). destruct (nth_error atts k) as [a|] eqn:Ek.
      2:{ apply nth_error_None in Ek. lia. }
      pose proof (A1 k a Ek) as Ht. pose proof (A2 k a Ek) as Hd. fold dta in Hd.
      assert (Hb : Bltb (at_t a) t1 = true) by (rewrite Forall_forall in A4; apply A4; eapply nth_error_In; exact Ek).
      set (t := time_after t0 (firstn k atts)) in * .
      destruct (step64 t0 t1 F1 B0 B1 (at_t a) (dta (firstn k atts)) ltac:(rewrite Ht; exact I6) ltac:(rewrite Ht; apply I7) Hb I1) as (Fa & Pa & Fe & Pe).
      change (if Bltb t1 (Bplus mode_NE (at_t a) (dta (firstn k atts))) then Bminus mode_NE t1 (at_t a) else dta (firstn k atts)) with (clip t1 (at_t a) (dta (firstn k atts))) in * .
      rewrite <- Hd in Fa, Pa, Fe, Pe. change (Bplus mode_NE (at_t a) (at_dt a)) with (at_end a) in * . fold over in Pe.
      rewrite Ht in Pe, Hb. rewrite Bltb_correct in Hb by assumption. destruct (Rlt_bool_spec (B2R t) (B2R t1)) as [Hb'|]; [|discriminate].
      rewrite (firstn_S' atts k a Ek), accepted_snoc, time_after_snoc. split.
      { unfold dta, dt_after. rewrite fold_left_app. cbn [fold_left]. unfold next_dt. destruct (eo_adaptive opts) eqn:Ea; [|apply nonneg_finite; assumption].
        specialize (A6 eq_refl). rewrite Forall_forall in A6. destruct (A6 a ltac:(eapply nth_error_In; exact Ek)) as [e He].
        apply (new_dt_nonneg pw (Hpw eq_refl) opts mo e); assumption. }
      destruct (at_ok a).
      + rewrite map_app. change (map at_end [a]) with [at_end a]. rewrite app_comm_cons. fold t. set (ts := t0 :: map at_end (accepted (firstn k atts))) in * . split; [|split; [|split; [|split; [|split]]]].
        * apply Forall_app. split; [exact I2|]. constructor; [|constructor]. split; [exact Fe|]. split; [lra|apply Pe].
        * clear - I3 I4 Pe. induction I3 as [|x l S IH F]; cbn [app]; [repeat constructor|]. inversion_clear I4 as [|? ? Hx Hl]. cbv beta in Hx. constructor; [apply IH; assumption|].
          apply Forall_app. split; [exact F|]. constructor; [lra|constructor].
        * apply Forall_app. split; [|constructor; [apply Rle_refl|constructor]]. eapply Forall_impl; [|exact I4]. intros x Hx. cbv beta in Hx |- * . lra.
        * rewrite removelast_last. eapply Forall_impl; [|exact I4]. intros x Hx. cbv beta in Hx |- * . lra.
        * exact Fe.
        * split; [lra|apply Pe].
      + rewrite app_nil_r. tauto.
  Qed.
End Run.

Section Odeint.
  Context (pw : f64 -> f64 -> f64).
  Let HS := F64Scalar pw.
  Existing Instance HS.
  Lemma eff_adaptive_true (opts : erk_options f64) sc : eo_adaptive (eff_opts opts sc) = true -> eo_adaptive opts = true.
  Proof. unfold eff_opts. match goal with |- context [if ?c then _ else _] => destruct c end; [intros H; discriminate H|intros H; exact H]. Qed.
  Lemma erk_times64 (HL : LinAlg f64) (HE : Env f64) (St : Type) (F : functor f64 St) fuel t0 t1 y0 opts oo m dt w w' sol :
    (eo_adaptive opts = true -> pow_keeps_sign pw) ->
    is_finite t0 = true -> is_finite t1 = true -> Rabs (B2R t0) <= bpow radix2 1022 -> Rabs (B2R t1) <= bpow radix2 1022 ->
    Bltb t0 t1 = true -> Bltb (B754_zero false) dt = true ->
    erk_odeint fuel F t0 t1 y0 opts oo m dt w = (w', Ok sol) ->
    Forall (fun t => is_finite t = true) (eo_t_vals sol) /\ StronglySorted (fun s t => B2R s <= B2R t) (eo_t_vals sol) /\
    Forall (fun t => B2R t < B2R t1) (removelast (eo_t_vals sol)) /\
    (eo_status sol = SUCCESS -> B2R t1 <= B2R (last (eo_t_vals sol) t0) <= B2R t1 + bpow radix2 (-52) * (B2R t1 - B2R t0 + Rabs (B2R t1))).
  Proof.
    intros Hpw F0 F1 B0 B1 Hlt Hdt Hrun.
    destruct (erk_odeint_finished F false (fun _ => []) (fun _ _ _ => eq_refl) _ _ _ _ _ _ _ _ _ _ _ Hrun) as (Ha & sc & a & b & Hm & Hg & Hd & _ & _ & atts & O & A & _ & _ & En).
    destruct (times64_prefix pw t0 t1 _ _ dt atts A ltac:(intros E; apply Hpw; exact (eff_adaptive_true _ _ E)) F0 F1 B0 B1 Hlt Hdt (length atts) (le_n _)) as (_ & I2 & I3 & _ & I5 & I6 & I7).
    rewrite firstn_all in * . rewrite (ok_t _ _ _ _ _ O). split; [eapply Forall_impl; [|exact I2]; intros x Hx; apply Hx|]. split; [exact I3|]. split; [exact I5|].
    intros Hs. rewrite last_times. split; [|apply I7]. destruct En as [(_ & _ & _ & _ & E5)|(E1 & _)]; [|rewrite E1 in Hs; discriminate].
    change (Bltb (time_after t0 atts) t1 = false) in E5. rewrite Bltb_correct in E5 by assumption.
    destruct (Rlt_bool_spec (B2R (time_after t0 atts)) (B2R t1)); [discriminate|assumption].
  Qed.
End Odeint.

From Verif Require Import Proofs.ErkExamples.
Lemma ex_pow_sign : pow_keeps_sign ex_pow.
Proof. intros [s|s| |s m e H] y Hs; exact Hs. Qed.
Lemma zero_finite : is_finite (f64_lit 0 0) = true. Proof. vm_compute. reflexivity. Qed.
Lemma zero_value : B2R (f64_lit 0 0) = 0. Proof. rewrite zero64. reflexivity. Qed.
Lemma zero_one : Bltb (f64_lit 0 0) (f64_lit 1 0) = true. Proof. vm_compute. reflexivity. Qed.
Lemma half_positive : Bltb (B754_zero false) (f64_lit 5 (-1)) = true. Proof. vm_compute. reflexivity. Qed.
Lemma zero_small : 0 <= bpow radix2 1022 -> Rabs (B2R (f64_lit 0 0)) <= bpow radix2 1022. Proof. rewrite zero_value, Rabs_R0. auto. Qed.
Lemma one_small : 1 <= bpow radix2 1022 -> Rabs (B2R (f64_lit 1 0)) <= bpow radix2 1022. Proof. rewrite one_value, Rabs_R1. auto. Qed.
Lemma ex_times_true : match ex_run false true (-1) CASH_KARP_54 ex_file with (_, Ok s) => (eo_status s =? SUCCESS)%Z && (10 <=? length (eo_t_vals s))%nat | _ => false end = true.
Proof. vm_compute. reflexivity. Qed.

Lemma q0 (B : 0 <= bpow radix2 1022) : Rabs (B2R (@sZ f64 ex_S 0)) <= bpow radix2 1022. Proof. exact (zero_small B). Qed.
Lemma q9 (B : 1 <= bpow radix2 1022) : Rabs (B2R (@sZ f64 ex_S 1)) <= bpow radix2 1022. Proof. exact (one_small B). Qed.
Lemma q6 : Bltb (@sZ f64 ex_S 0) (@sZ f64 ex_S 1) = true. Proof. exact zero_one. Qed.
Lemma q7 : Bltb (B754_zero false) (@slit f64 ex_S 5 (-1)) = true. Proof. exact half_positive. Qed.
Lemma q4 : is_finite (@sZ f64 ex_S 0) = true. Proof. exact zero_finite. Qed.
Lemma q5 : is_finite (@sZ f64 ex_S 1) = true. Proof. exact one_finite. Qed.
Lemma big_0 : 0 <= bpow radix2 1022. Proof. apply bpow_ge_0. Qed.
Lemma big_1 : 1 <= bpow radix2 1022. Proof. change 1 with (bpow radix2 0). apply bpow_le. lia. Qed.
Lemma q_arith (a b l : R) : a = 0 -> b = 1 -> b <= l <= b + bpow radix2 (-52) * (b - a + Rabs b) -> 1 <= l <= 1 + bpow radix2 (-51).
Proof.
  intros -> ->. rewrite Rabs_R1.
  assert (E : bpow radix2 (-51) = bpow radix2 (-52) * 2) by (change 2 with (bpow radix2 1); rewrite <- bpow_plus; reflexivity). rewrite E. lra.
Qed.
Lemma ex_run_eq nd ad ms m oo : ex_run nd ad ms m oo =
  @erk_odeint f64 ex_S ex_LA (ex_E nd) _ 50 (logged ex_osc) (@sZ f64 ex_S 0) (@sZ f64 ex_S 1) [@sZ f64 ex_S 1; @sZ f64 ex_S 0] (ex_opts ad ms) oo m (@slit f64 ex_S 5 (-1)) (World (tt, []) []).
Proof. reflexivity. Qed.
Lemma erk_times64_use w s : ex_run false true (-1) CASH_KARP_54 ex_file = (w, Ok s) -> eo_status s = SUCCESS ->
  Forall (fun t => is_finite t = true) (eo_t_vals s) /\ 1 <= B2R (last (eo_t_vals s) (@sZ f64 ex_S 0)) <= 1 + bpow radix2 (-51).
Proof.
  intros E T1. rewrite ex_run_eq in E.
  destruct (erk_times64 ex_pow ex_LA (ex_E false) _ _ _ (@sZ f64 ex_S 0) (@sZ f64 ex_S 1) _ _ _ _ (@slit f64 ex_S 5 (-1)) _ _ _ (fun _ => ex_pow_sign) q4 q5
    (q0 big_0) (q9 big_1) q6 q7 E) as (K1 & _ & _ & K4). split; [exact K1|]. exact (q_arith _ _ _ zero_value one_value (K4 T1)).
Qed.
Lemma erk_times64_example : pow_keeps_sign ex_pow /\ exists w s, ex_run false true (-1) CASH_KARP_54 ex_file = (w, Ok s) /\ eo_status s = SUCCESS /\
  Forall (fun t => is_finite t = true) (eo_t_vals s) /\ (10 <= length (eo_t_vals s))%nat /\ 1 <= B2R (last (eo_t_vals s) (@sZ f64 ex_S 0)) <= 1 + bpow radix2 (-51).
Proof.
  split; [exact ex_pow_sign|]. pose proof ex_times_true as T.
  destruct (ex_run false true (-1) CASH_KARP_54 ex_file) as [w [s|e]] eqn:E; [|discriminate]. apply andb_prop in T. destruct T as [T1 T2]. apply Z.eqb_eq in T1. apply Nat.leb_le in T2.
  destruct (erk_times64_use w s E T1) as [K1 K4]. exists w, s. split; [reflexivity|]. split; [exact T1|]. split; [exact K1|]. split; [exact T2|exact K4].
Qed.
