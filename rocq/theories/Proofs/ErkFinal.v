(** Last steps towards the theorems of Props/ErkProps.v. *)
From Coq Require Import Reals Lra.
From Flocq Require IEEE754.BinarySingleNaN.
From Verif Require Import Model.Base Model.Scalar Model.LinAlg Model.Enums Model.Options Model.Coeffs Model.ErkCoeffs Model.Erk.
From Verif Require Import Spec.Sums Spec.Trees Spec.RkSpec Spec.Observe Spec.ErkSpec Spec.ErkSame Spec.Methods.
From Verif Require Import Proofs.SumsProofs Proofs.OrderProofs Proofs.TablesGeneric Proofs.NaiveInstance Proofs.ExactInstance Proofs.ErkProofs Proofs.ErkGeneric Proofs.ErkTimes Proofs.ErkTotal Proofs.ErkBounded Proofs.ErkFsal Proofs.ErkF64 Proofs.ErkNan Proofs.ErkExamples.
Local Open Scope R_scope.

Lemma ex_runs :
  (exists w s, ex_run false true (-1) CASH_KARP_54 ex_file = (w, Ok s) /\ eo_status s = SUCCESS /\ eo_attempt s = 19%nat /\
     eo_reject_err s = 6%nat /\ eo_fun_evals s = 114%nat /\ length (eo_t_vals s) = 14%nat /\ length (w_out w) = 19%nat) /\
  (exists w s, ex_run false true 2 DORMAND_PRINCE_54 ex_file = (w, Ok s) /\ eo_status s = ERROR_MAX_STEPS_EXCEEDED /\ eo_attempt s = 5%nat /\
     eo_reject_err s = 1%nat /\ eo_fun_evals s = 25%nat /\ length (eo_t_vals s) = 4%nat /\ length (w_out w) = 4%nat).
Proof.
  split; [destruct (ex_summary_ok _ _ ex_success) as (w & s & H1 & H2)|destruct (ex_summary_ok _ _ ex_limit) as (w & s & H1 & H2)];
    injection H2 as H2 H3 H4 H5 H6 H7; exists w, s; auto 10.
Qed.
Lemma ex_flag : exists w s, ex_run false true (-1) RUNGE_KUTTA_4 ex_file = (w, Ok s) /\ length (eo_t_vals s) = 3%nat /\
  ~ exists w s, ex_run false true (-1) CASH_KARP_54 ex_file = (w, Ok s) /\ length (eo_t_vals s) = 3%nat.
Proof.
  assert (H : exists x, ex_summary (ex_run false true (-1) RUNGE_KUTTA_4 ex_file) = Some x /\ snd (fst x) = 3%nat) by (eexists; split; vm_compute; reflexivity).
  destruct H as (x & H & Hx). destruct (ex_summary_ok _ _ H) as (w & s & H1 & ->). exists w, s. split; [exact H1|]. split; [exact Hx|].
  intros (w2 & s2 & E2 & L2). destruct ex_runs as [(w3 & s3 & E3 & _ & _ & _ & _ & L3 & _) _]. rewrite E2 in E3. injection E3 as _ E3. subst s3. rewrite L2 in L3. discriminate.
Qed.

Lemma cos_bounded : total_fun (exr_fun (fun t y => [cos t])) (fun t y => [cos t]) /\ preserves_dim (fun t (y : list R) => [cos t]) 1 /\
  forall t (y : list R) q, length y = 1%nat -> Rabs (ventry [cos t] q) <= 1.
Proof.
  split; [apply exr_total|]. split; [intros t y _; reflexivity|]. intros t y q _. unfold ventry. destruct q as [|[|q]]; simpl.
  - pose proof (COS_bound t). apply Rabs_le. lra.
  - rewrite Rabs_R0. lra.
  - rewrite Rabs_R0. lra.
Qed.
Lemma ex_cos m : In m explicit_embedded -> exists fuel w' sol,
  @erk_odeint R RScalar exact_LA (exr_E false) _ fuel (exr_fun (fun t y => [cos t])) 0 1 [0] (exr_opts true) output_options_default m (1 / 4) (World tt []) = (w', Ok sol).
Proof. intros Hm. destruct cos_bounded as (_ & H2 & H3). eapply exr_adaptive; [exact Hm|discriminate|exact H2|exact H3]. Qed.
Lemma ex_cos_logged m : In m explicit_embedded -> exists fuel w' sol,
  @erk_odeint R RScalar exact_LA (exr_E false) _ fuel (logged (exr_fun (fun t y => [cos t]))) 0 1 [0] (exr_opts true) output_options_default m (1 / 4) (World (tt, []) []) = (w', Ok sol).
Proof.
  intros Hm. destruct cos_bounded as (_ & H2 & H3). apply (erk_bounded_halts (X := exact_LA_products) _ (fun t y => [cos t])) with (B := 1); simpl; auto; try lra; try discriminate.
  intros t y s. reflexivity.
Qed.

Lemma overshoot pw (HL : LinAlg f64) (HE : Env f64) (St : Type) (F : functor f64 St) fuel y0 opts oo m w w' sol :
  let HS := F64Scalar pw in
  let t0 := dyadic (-1) 0 in let t1 := dyadic 3 (-54) in
  eo_adaptive opts = false -> (eo_max_steps opts < 0)%Z ->
  erk_odeint fuel F t0 t1 y0 opts oo m (dyadic 2 0) w = (w', Ok sol) ->
  eo_status sol = SUCCESS /\ eo_t_vals sol = [t0; dyadic 1 (-52)] /\ BinarySingleNaN.Bltb t1 (dyadic 1 (-52)) = true.
Proof.
  intros HS t0 t1 Ha Hm Hr.
  assert (Hc : clip (T := f64) (H := HS) t1 t0 (dyadic 2 0) = dyadic 4503599627370497 (-52)).
  { apply BinarySingleNaN.B2SF_inj. vm_compute. reflexivity. }
  assert (He : sadd (Scalar := HS) t0 (dyadic 4503599627370497 (-52)) = dyadic 1 (-52)).
  { apply BinarySingleNaN.B2SF_inj. vm_compute. reflexivity. }
  assert (Hc' : clip (T := f64) (H := HS) t1 t0 (dyadic 4503599627370497 (-52)) = dyadic 4503599627370497 (-52)).
  { apply BinarySingleNaN.B2SF_inj. vm_compute. reflexivity. }
  assert (Hlt : sltb (Scalar := HS) t0 t1 = true) by (vm_compute; reflexivity).
  assert (Hover : BinarySingleNaN.Bltb t1 (dyadic 1 (-52)) = true) by (vm_compute; reflexivity).
  assert (Hend : sltb (Scalar := HS) (dyadic 1 (-52)) t1 = false) by (vm_compute; reflexivity).
  clearbody t0 t1. set (d2 := dyadic 2 0) in * . set (d1 := dyadic 1 (-52)) in * . set (h := dyadic 4503599627370497 (-52)) in * . clearbody d1 d2 h HS.
  destruct (erk_one_step F fuel t0 t1 y0 opts oo m d2 Ha Hm Hlt w w' sol) as [H1 H2].
  - rewrite Hc, He. exact Hend.
  - rewrite Hc. exact Hc'.
  - exact Hr.
  - rewrite Hc, He in H2. auto.
Qed.
Lemma never_advances pw (HL : LinAlg f64) (HE : Env f64) (St : Type) (F : functor f64 St) fuel y0 opts oo m w w' sol :
  let HS := F64Scalar pw in
  eo_adaptive opts = false -> (eo_max_steps opts < 0)%Z ->
  erk_odeint fuel F (dyadic 1 53) (dyadic (2 ^ 53 + 10) 0) y0 opts oo m (dyadic 1 (-2)) w <> (w', Ok sol).
Proof.
  intros HS Ha Hm.
  assert (Hlt : sltb (Scalar := HS) (dyadic 1 53) (dyadic (2 ^ 53 + 10) 0) = true) by (vm_compute; reflexivity).
  assert (Hnc : sltb (Scalar := HS) (dyadic (2 ^ 53 + 10) 0) (sadd (Scalar := HS) (dyadic 1 53) (dyadic 1 (-2))) = false) by (vm_compute; reflexivity).
  assert (Hadd : sadd (Scalar := HS) (dyadic 1 53) (dyadic 1 (-2)) = dyadic 1 53) by (apply BinarySingleNaN.B2SF_inj; vm_compute; reflexivity).
  set (t0 := dyadic 1 53) in * . set (t1 := dyadic (2 ^ 53 + 10) 0) in * . set (d := dyadic 1 (-2)) in * . clearbody t0 t1 d HS.
  apply erk_never_advances; assumption.
Qed.

Lemma fsal_final (HE : Env R) (HL : LinAlg R) (HX : ExactProducts HL) (St : Type) (F : functor R St) f : total_fun F f ->
  forall m sc, In m explicit_methods -> erk_get_coefficients m = Ok sc ->
  forall t0 t1 y0 opts oo, preserves_dim f (length y0) -> forall fuel dt w,
  match erk_guts F t1 opts sc oo fuel t0 y0 dt w, erk_guts F t1 opts (without_reuse sc) oo fuel t0 y0 dt w with
  | (w1, Ok a), (w2, Ok b) => w_out w1 = w_out w2 /\ same_but_evals a b
  | (w1, Err e1), (w2, Err e2) => w_out w1 = w_out w2 /\ e1 = e2
  | _, _ => False
  end.
Proof.
  intros HF m sc Hm Hg t0 t1 y0 opts oo Hp fuel dt w.
  destruct (erk_get_ok (T := R) m) as (sc' & Hg' & _ & Hd). rewrite Hg in Hg'. injection Hg' as <-.
  destruct (stages_dim m sc Hm Hd) as (L1 & L2 & L3). apply (fsal_guts F f HF m); try assumption. rewrite L1. exact Hd.
Qed.

Lemma fixed_final (HE : Env R) (HL : LinAlg R) (St : Type) (F : functor R St) t0 t1 y0 opts oo m dt :
  returns_dim F (length y0) -> In m explicit_methods -> (write_to_file oo = true -> output_stream oo <> None) ->
  t0 < t1 -> 0 < dt -> eo_adaptive opts = false \/ ~ In m explicit_embedded ->
  forall w, exists n w' sol, (forall fuel, (n <= fuel)%nat -> erk_odeint fuel F t0 t1 y0 opts oo m dt w = (w', Ok sol)) /\
  (forall k, (k < length (eo_t_vals sol))%nat -> nth k (eo_t_vals sol) 0 = Rmin (t0 + INR k * dt) t1) /\
  (eo_status sol = SUCCESS -> exists N, (1 <= N)%nat /\ INR (N - 1) * dt < t1 - t0 <= INR N * dt /\
     eo_t_vals sol = map (fun k => t0 + INR k * dt) (seq 0 N) ++ [t1]) /\
  ((eo_max_steps opts < 0)%Z -> eo_status sol = SUCCESS).
Proof.
  intros HF Hm Hoo Ht Hdt Hfix w. destruct (erk_fixed_halts F t0 t1 y0 opts oo m dt HF Hm Hoo Ht Hdt Hfix w) as (n & w' & sol & Hr).
  exists n, w', sol. split; [intros fuel Hf; exact (erk_odeint_more F n fuel _ _ _ _ _ _ _ _ _ _ Hf Hr)|].
  destruct (erk_fixed_grid F t0 t1 y0 opts oo m dt Hm Ht Hdt Hfix n w w' sol Hr) as [G1 G2]. split; [exact G1|]. split; [exact G2|].
  intros Hms. destruct (erk_limit F n t0 t1 y0 opts oo m dt w w' sol Hr) as [[E _]|(_ & _ & E & _)]; [exact E|lia].
Qed.
Lemma bounded_final (HE : Env R) (HL : LinAlg R) (HX : ExactProducts HL) (St : Type) (F : functor R St) f B t0 t1 y0 opts oo m dt :
  total_fun F f -> preserves_dim f (length y0) -> (forall t y q, length y = length y0 -> Rabs (ventry (f t y) q) <= B) -> y0 <> [] ->
  In m explicit_embedded -> (write_to_file oo = true -> output_stream oo <> None) ->
  eo_adaptive opts = true -> 0 < eo_abs_tol opts -> 0 <= eo_rel_tol opts -> t0 < t1 -> 0 < dt ->
  forall w, exists n w' sol, (forall fuel, (n <= fuel)%nat -> erk_odeint fuel F t0 t1 y0 opts oo m dt w = (w', Ok sol)) /\
  ((eo_max_steps opts < 0)%Z -> eo_status sol = SUCCESS).
Proof.
  intros H1 H2 H3 H4 H5 H6 H7 H8 H9 H10 H11 w.
  destruct (erk_bounded_halts (X := HX) F f t0 t1 y0 opts oo m dt B H1 H2 H3 H4 H5 H6 H7 H8 H9 H10 H11 w) as (n & w' & sol & Hr).
  exists n, w', sol. split; [intros fuel Hf; exact (erk_odeint_more F n fuel _ _ _ _ _ _ _ _ _ _ Hf Hr)|].
  intros Hms. destruct (erk_limit F n t0 t1 y0 opts oo m dt w w' sol Hr) as [[E _]|(_ & _ & E & _)]; [exact E|lia].
Qed.

Lemma nan_abort_final pw : forall (HE : Env f64) (HL : LinAlg f64), nan_products HL -> forall (St : Type) (F : functor f64 St),
  let HS := F64Scalar pw in
  forall m t0 t1 y0 opts oo dt w fuel, always_nan F (length y0) -> (0 < length y0)%nat -> In m explicit_embedded -> eo_adaptive opts = true ->
  ndebug = false -> (t0 <?. t1)%sc = true -> (dt >?. sZ 0)%sc = true -> (t1 -. t0 >?. sZ 0)%sc = true ->
  exists w', erk_odeint (S fuel) F t0 t1 y0 opts oo m dt w = (w', Err EAbort) /\ w_out w' = w_out w.
Proof.
  intros HE HL HLA St F HS m t0 t1 y0 opts oo dt w fuel HF Hn Hm Had Hnd Hlt Hdt Hd.
  destruct (erk_get_ok (T := f64) m) as (sc & Hg & _ & _).
  apply (erk_nan_abort pw (E := HE) (LA := HL) HLA F m sc); try assumption. unfold clip. destruct (t0 +. dt >?. t1)%sc; assumption.
Qed.
Lemma nan_accept_final pw : pow_nan pw -> forall (HE : Env f64) (HL : LinAlg f64), nan_products HL -> forall (St : Type) (F : functor f64 St),
  let HS := F64Scalar pw in
  forall m t0 t1 y0 opts oo dt w fuel w' sol, always_nan F (length y0) -> (0 < length y0)%nat -> In m explicit_embedded -> eo_adaptive opts = true ->
  erk_odeint fuel F t0 t1 y0 opts oo m dt w = (w', Ok sol) ->
  eo_reject_err sol = 0%nat /\ Forall (fun y => y = repeat nan (length y0)) (tl (eo_y_vals sol)) /\ Forall (fun e => e = nan) (tl (eo_err sol)) /\
  eo_t_vals sol = nan_grid (eo_max_dt opts) t1 (length (eo_t_vals sol)) t0 (if (t0 +. dt >?. t1)%sc then (t1 -. t0)%sc else dt) /\
  ((eo_max_steps opts < 0)%Z -> eo_status sol = SUCCESS).
Proof.
  intros Hpw HE HL HLA St F HS m t0 t1 y0 opts oo dt w fuel w' sol HF Hn Hm Had Hr.
  destruct (erk_get_ok (T := f64) m) as (sc & Hg & _ & _).
  destruct (erk_nan_run pw Hpw (E := HE) (LA := HL) HLA F m sc t0 t1 y0 opts oo dt HF Hn Hm Hg Had fuel w w' sol Hr) as (R1 & R2 & R3 & R4).
  split; [exact R1|]. split; [exact R2|]. split; [exact R3|]. split; [exact R4|].
  intros Hms. destruct (erk_limit F fuel t0 t1 y0 opts oo m dt w w' sol Hr) as [[E _]|(_ & _ & E & _)]; [exact E|lia].
Qed.

Lemma naive_nan pw : nan_products (naive_LA f64 (F64Scalar pw)).
Proof.
  intros A x i Hx Hl Hi Hc. cbn [naive_LA la_mv].
  assert (G : forall l acc, acc = nan -> fold_left (fun acc (p : list f64 * f64) => sadd (Scalar := F64Scalar pw) acc (smul (Scalar := F64Scalar pw) (nth i (fst p) (sZ (H := F64Scalar pw) 0)) (snd p))) l acc = nan).
  { induction l as [|p l IH]; intros acc Ha; [exact Ha|]. cbn [fold_left]. apply IH. rewrite Ha. reflexivity. }
  unfold ncols in Hl. destruct (mcols A) as [|c l] eqn:Ec; destruct x as [|a x]; simpl in Hl; try discriminate; [contradiction Hx; reflexivity|].
  cbn [combine fold_left fst snd]. apply G. pose proof (Forall_inv Hc) as Hc0. rewrite Hc0.
  rewrite (nth_indep _ _ nan) by (rewrite repeat_length; exact Hi). rewrite nth_repeat. cbn [sadd smul F64Scalar].
  assert (Hm : BinarySingleNaN.Bmult (prec_gt_0_ := prec_gt_0_53) (prec_lt_emax_ := prec_lt_emax_1024) BinarySingleNaN.mode_NE nan a = nan) by reflexivity.
  rewrite Hm. reflexivity.
Qed.
Lemma nan_example : pow_nan ex_pow /\ nan_products ex_LA /\
  let F := pure_functor (fun (_ : f64) (_ : list f64) => [nan; nan]) (fun _ _ => mtab 0 0 (fun _ _ => nan)) in
  always_nan F 2 /\
  match @erk_odeint f64 ex_S ex_LA (ex_E true) _ 50 F (dyadic 0 0) (dyadic 1 0) [dyadic 1 0; dyadic 0 0] (ex_opts true (-1)) output_options_default CASH_KARP_54 (dyadic 1 (-6)) (World tt []) with
  | (_, Ok sol) => eo_status sol = SUCCESS /\ length (eo_t_vals sol) = 5%nat | _ => False end.
Proof.
  split; [intros x _; reflexivity|]. split; [apply naive_nan|]. split; [intros t y s; exists s; reflexivity|]. vm_compute. split; reflexivity.
Qed.
