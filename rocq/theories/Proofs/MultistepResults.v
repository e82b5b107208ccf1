(** What a caller of adams_bashforth and bdf can rely on. *)
From Coq Require Import Reals Lra.
From Verif Require Import Model.Base Model.Scalar Model.LinAlg Model.CyclicBuffer Model.Newton Model.Enums Model.Options Model.Multistep.
From Verif Require Import Spec.Sums Spec.RkSpec Spec.Observe Spec.ErkSpec Spec.NewtonSpec Spec.IrkSpec Spec.MultistepSpec.
From Verif Require Import Proofs.IrkResults Proofs.LoopProofs Proofs.SumsProofs Proofs.CyclicBufferProofs Proofs.RVec Proofs.NewtonReal Proofs.ErkTimes Proofs.MultistepProofs Proofs.MultistepReal Proofs.MultistepOrders.

(** ** Every arithmetic *)
Section Every.
  Context {T : Type} `{Scalar T} `{LinAlg T} `{Env T} {St : Type}.
  Local Notation W := (world T St).
  Variables (fuel : nat) (F : functor T St) (t0 t1 : T) (y0 : list T) (order : Z) (dt : T) (w w' : W) (sol : basic_output T).

  Lemma ab_starting : adams_bashforth fuel F t0 t1 y0 order dt w = (w', Ok sol) ->
    let k := Z.to_nat order in
    (1 <= order)%Z /\ (k <= length (bo_y_vals sol))%nat /\ firstn k (bo_y_vals sol) = repeat y0 k /\
    firstn k (bo_t_vals sol) = grid k t0 (fitted_step t0 t1 dt).
  Proof.
    intros Hr k. destruct (ab_run _ _ _ _ _ _ _ _ _ _ Hr) as (Ho & _ & [S1 S2 S3 S4 S5]). split; [exact Ho|]. split; [exact S1|]. split; [exact S3|].
    rewrite S2. unfold grid. rewrite firstn_map. f_equal. replace (length (bo_y_vals sol)) with (k + (length (bo_y_vals sol) - k))%nat by (unfold k; lia).
    rewrite seq_app, firstn_app, seq_length, Nat.sub_diag, firstn_O, app_nil_r. rewrite <- (seq_length k 0) at 1. apply firstn_all.
  Qed.
  Lemma bdf_starting : bdf fuel F t0 t1 y0 order dt w = (w', Ok sol) -> (1 <= order <= 6)%Z ->
    let k := S (Z.to_nat order) in
    (k <= length (bo_y_vals sol))%nat /\ firstn k (bo_y_vals sol) = repeat y0 k /\
    firstn k (bo_t_vals sol) = grid k t0 (fitted_step t0 t1 dt).
  Proof.
    intros Hr Ho k. destruct (bdf_run _ _ _ _ _ _ _ _ _ _ Hr Ho) as (_ & [S1 S2 S3 S4 S5]). replace (Z.to_nat order + 1)%nat with k in * by (unfold k; lia). split; [exact S1|]. split; [exact S3|].
    rewrite S2. unfold grid. rewrite firstn_map. f_equal. replace (length (bo_y_vals sol)) with (k + (length (bo_y_vals sol) - k))%nat by lia.
    rewrite seq_app, firstn_app, seq_length, Nat.sub_diag, firstn_O, app_nil_r. rewrite <- (seq_length k 0) at 1. apply firstn_all.
  Qed.

  (** the grid of times *)
  Lemma ab_grid : adams_bashforth fuel F t0 t1 y0 order dt w = (w', Ok sol) ->
    let h := fitted_step t0 t1 dt in let N := length (bo_y_vals sol) in
    bo_status sol = SUCCESS /\ bo_t_vals sol = grid N t0 h /\ (gtime t0 h (N - 1) <?. t1)%sc = false /\
    forall i, (Z.to_nat order <= i < N)%nat -> (gtime t0 h (i - 1) <?. t1)%sc = true.
  Proof.
    intros Hr h N. destruct (ab_run _ _ _ _ _ _ _ _ _ _ Hr) as (Ho & _ & [S1 S2 S3 S4 [[S5 S6]|(_ & _ & [])]]).
    split; [exact S5|]. split; [exact S2|]. split; [exact S6|]. intros i Hi. apply S4. exact Hi.
  Qed.
  Lemma bdf_grid : bdf fuel F t0 t1 y0 order dt w = (w', Ok sol) -> (1 <= order <= 6)%Z ->
    let h := fitted_step t0 t1 dt in let N := length (bo_y_vals sol) in
    bo_t_vals sol = grid N t0 h /\
    (forall i, (S (Z.to_nat order) <= i < N)%nat -> (gtime t0 h (i - 1) <?. t1)%sc = true) /\
    (bo_status sol = SUCCESS /\ (gtime t0 h (N - 1) <?. t1)%sc = false \/
     bo_status sol = INTERNAL_SOLVE_FAILURE /\ (gtime t0 h (N - 1) <?. t1)%sc = true).
  Proof.
    intros Hr Ho h N. destruct (bdf_run _ _ _ _ _ _ _ _ _ _ Hr Ho) as (_ & [S1 S2 S3 S4 S5]).
    split; [exact S2|]. split; [intros i Hi; apply S4; fold N; lia|]. destruct S5 as [S5|(S5 & S6 & _)]; [left; exact S5|right; split; assumption].
  Qed.

  (** orders outside the supported range *)
  Lemma ab_negative_order : (ndebug = true \/ (fitted_step t0 t1 dt >?. sZ 0)%sc = true) -> (order < 0)%Z ->
    adams_bashforth fuel F t0 t1 y0 order dt w = (w, Err (EThrow ELogic)).
  Proof.
    intros Hh Ho. unfold adams_bashforth. cbv zeta. fold (fitted_step t0 t1 dt). unfold bind at 1, assert_.
    assert (E : (if ndebug then ret tt else if (fitted_step t0 t1 dt >?. sZ 0)%sc then ret tt else fail EAbort) w = (w, Ok tt) :> W * res unit) by (destruct Hh as [->| ->]; [reflexivity|destruct ndebug; reflexivity]).
    rewrite E. unfold bind at 1, lift, cb_make. apply Z.ltb_lt in Ho. rewrite Ho. reflexivity.
  Qed.
  Lemma ab_order_zero : (ndebug = true \/ (fitted_step t0 t1 dt >?. sZ 0)%sc = true) ->
    adams_bashforth fuel F t0 t1 y0 0 dt w = (w, Err EUB).
  Proof.
    intros Hh. unfold adams_bashforth. cbv zeta. fold (fitted_step t0 t1 dt). unfold bind at 1, assert_.
    assert (E : (if ndebug then ret tt else if (fitted_step t0 t1 dt >?. sZ 0)%sc then ret tt else fail EAbort) w = (w, Ok tt) :> W * res unit) by (destruct Hh as [->| ->]; [reflexivity|destruct ndebug; reflexivity]).
    rewrite E. reflexivity.
  Qed.
  Lemma ab_order_high : (5 < order)%Z -> adams_bashforth fuel F t0 t1 y0 order dt w = (w', Ok sol) ->
    bo_y_vals sol = repeat y0 (length (bo_y_vals sol)) /\ (ndebug = false -> length (bo_y_vals sol) = Z.to_nat order).
  Proof.
    intros Ho5 Hr. destruct (ab_run _ _ _ _ _ _ _ _ _ _ Hr) as (Ho & _ & [S1 S2 S3 S4 S5]).
    set (ys := bo_y_vals sol) in * . set (k := Z.to_nat order) in * .
    assert (Hst : forall i, (k <= i < length ys)%nat -> ndebug = true /\ nth i ys [] = last (firstn i ys) []).
    { intros i Hi. destruct (S4 i Hi) as [(b & v & v' & _ & Hs) _]. unfold adams_bashforth_step in Hs.
      destruct (Z.eqb_spec order 1); [lia|]. replace ((2 <=? order)%Z && (order <=? 5)%Z) with false in Hs by (symmetry; apply andb_false_iff; right; apply Z.leb_gt; lia).
      unfold bind, assert_, ret, fail in Hs. destruct ndebug; [|discriminate]. injection Hs as _ E. auto. }
    assert (Hall : forall i, (i <= length ys)%nat -> firstn i ys = repeat y0 i).
    { induction i as [|i IH]; intros Hi; [reflexivity|]. specialize (IH ltac:(lia)).
      destruct (le_lt_dec (S i) k) as [Hk|Hk].
      - replace (firstn (S i) ys) with (firstn (S i) (firstn k ys)) by (rewrite firstn_firstn; f_equal; lia). rewrite S3.
        replace k with (S i + (k - S i))%nat by lia. rewrite repeat_app, firstn_app, repeat_length, Nat.sub_diag, firstn_O, app_nil_r.
        rewrite <- (repeat_length y0 (S i)) at 1. apply firstn_all.
      - destruct (Hst i ltac:(lia)) as [_ E]. rewrite IH in E. assert (Hn : nth_error ys i = Some (nth i ys [])) by (apply nth_error_nth'; lia).
        rewrite (firstn_S ys i _ Hn), IH, E. destruct i as [|i]; [lia|]. rewrite <- repeat_snoc at 2. rewrite last_last. apply repeat_snoc. }
    split; [rewrite <- (Hall (length ys)) by lia; symmetry; apply firstn_all|].
    intros Hd. destruct (Nat.eq_dec (length ys) k) as [E|E]; [exact E|]. destruct (Hst k ltac:(lia)) as [Hd' _]. congruence.
  Qed.
  (** compiled with NDEBUG *)
  Lemma bootstrap_ndebug o y t d (v v' : W) r : ndebug = true -> (2 <= o)%Z -> (t <?. t +. d)%sc = true -> bootstrap_history fuel F o y t d v = (v', Ok r) -> False.
  Proof.
    intros Hn H2 Ht Hb. unfold bootstrap_history in Hb. apply bind_ok in Hb. destruct Hb as (v1 & s & Hf & _).
    replace (Z.to_nat o - 1)%nat with (S (Z.to_nat o - 2)) in Hf by lia. cbn [seq foldM] in Hf. apply bind_ok in Hf. destruct Hf as (v2 & s' & Hf & _).
    cbn [nth_error Nat.sub] in Hf. apply bind_ok in Hf. destruct Hf as (v3 & yi & Hy & Hf). apply lift_ok in Hy. destruct Hy as [-> Hy]. injection Hy as <-.
    apply bind_ok in Hf. destruct Hf as (v4 & s4 & Hi & _).
    assert (E0 : Irk.io_newton (bootstrap_options (T := T)) = Some options_default) by reflexivity.
    destruct (irk_ndebug _ _ _ _ _ _ _ _ _ _ _ _ _ E0 Hn Ht Hi) as (E & _). discriminate.
  Qed.
  Lemma ab_ndebug : ndebug = true -> (2 <= order)%Z -> (t0 <?. t0 +. fitted_step t0 t1 dt)%sc = true -> adams_bashforth fuel F t0 t1 y0 order dt w <> (w', Ok sol).
  Proof.
    intros Hn H2 Ht Hr. unfold adams_bashforth in Hr. cbv zeta in Hr. fold (fitted_step t0 t1 dt) in Hr.
    apply bind_ok in Hr. destruct Hr as (w1 & u & Ha & Hr). apply bind_ok in Hr. destruct Hr as (w2 & h & Hc & Hr). apply bind_ok in Hr. destruct Hr as (w3 & hh & Hb & _).
    exact (bootstrap_ndebug _ _ _ _ _ _ _ Hn H2 Ht Hb).
  Qed.
  Lemma bdf_ndebug : ndebug = true -> (1 <= order <= 6)%Z -> (t0 <?. t0 +. fitted_step t0 t1 dt)%sc = true -> bdf fuel F t0 t1 y0 order dt w <> (w', Ok sol).
  Proof.
    intros Hn H2 Ht Hr. unfold bdf in Hr. rewrite Z.gtb_ltb in Hr. destruct (Z.ltb_spec 6 order); [lia|]. destruct (Z.leb_spec order 0); [lia|]. cbv zeta in Hr. fold (fitted_step t0 t1 dt) in Hr.
    apply bind_ok in Hr. destruct Hr as (w1 & u & Ha & Hr). apply bind_ok in Hr. destruct Hr as (w2 & h & Hc & Hr). apply bind_ok in Hr. destruct Hr as (w3 & hh & Hb & _).
    refine (bootstrap_ndebug _ _ _ _ _ _ _ Hn _ Ht Hb). lia.
  Qed.
  Lemma multistep_ndebug : ndebug = true -> (t0 <?. t0 +. fitted_step t0 t1 dt)%sc = true ->
    ((2 <= order)%Z -> adams_bashforth fuel F t0 t1 y0 order dt w <> (w', Ok sol)) /\ ((1 <= order <= 6)%Z -> bdf fuel F t0 t1 y0 order dt w <> (w', Ok sol)).
  Proof. intros Hn Ht. split; intros Ho; [apply ab_ndebug|apply bdf_ndebug]; assumption. Qed.
End Every.
Lemma ab_orders_outside {T} `{Scalar T} `{LinAlg T} `{Env T} {St} fuel (F : functor T St) t0 t1 y0 order dt w :
  (ndebug = true \/ (fitted_step t0 t1 dt >?. sZ 0)%sc = true) ->
  ((order < 0)%Z -> adams_bashforth fuel F t0 t1 y0 order dt w = (w, Err (EThrow ELogic))) /\
  adams_bashforth fuel F t0 t1 y0 0 dt w = (w, Err EUB) /\
  forall w' sol, (5 < order)%Z -> adams_bashforth fuel F t0 t1 y0 order dt w = (w', Ok sol) ->
    bo_y_vals sol = repeat y0 (length (bo_y_vals sol)) /\ (ndebug = false -> length (bo_y_vals sol) = Z.to_nat order).
Proof. intros Hh. split; [|split]; intros; [apply ab_negative_order; assumption|apply ab_order_zero; assumption|eapply ab_order_high; eassumption]. Qed.

(** ** Exact arithmetic *)
Local Open Scope R_scope.
Lemma gtime_R t h i : gtime t h i = t + INR i * h.
Proof. induction i as [|i IH]; [simpl; ring|]. cbn [gtime]. change (sadd (gtime t h i) h) with (gtime t h i + h). rewrite IH, S_INR. ring. Qed.
Lemma fitted_R t0 t1 dt : fitted_step t0 t1 dt = Rmin dt (t1 - t0).
Proof.
  unfold fitted_step. cbn [sltb ssub sadd RScalar]. unfold Rltb. destruct (Rlt_dec t1 (t0 + dt)) as [Hl|Hl]; unfold Rmin; destruct (Rle_dec dt (t1 - t0)); lra.
Qed.
Lemma yval_firstn ys i j : (j < i)%nat -> yval (firstn i ys) j = yval ys j.
Proof. intros Hj. unfold yval. revert i j Hj. induction ys as [|a ys IH]; intros [|i] [|j] Hj; try lia; cbn [firstn nth]; try reflexivity. apply IH. lia. Qed.
Lemma last_firstn (ys : list (list R)) i : (1 <= i <= length ys)%nat -> last (firstn i ys) [] = yval ys (i - 1).
Proof. intros Hi. rewrite last_nth, firstn_length_le by lia. apply (yval_firstn ys i (i - 1)). lia. Qed.
Lemma first_yval y0 ys k i : firstn k ys = repeat y0 k -> (i < k)%nat -> yval ys i = y0.
Proof. intros E Hi. rewrite <- (yval_firstn ys k i Hi), E. unfold yval. apply (nth_error_nth (repeat y0 k) i []), nth_error_repeat', Hi. Qed.

Section TimesR.
  Context {LA : LinAlg R} {HE : Env R} {St : Type}.
  Variables (fuel : nat) (F : functor R St) (t0 t1 : R) (y0 : list R) (order : Z) (dt : R) (w w' : world R St) (sol : basic_output R).
  Let h := Rmin dt (t1 - t0).

  Lemma ab_times : adams_bashforth fuel F t0 t1 y0 order dt w = (w', Ok sol) ->
    let N := length (bo_t_vals sol) in let tv i := nth i (bo_t_vals sol) 0 in
    length (bo_y_vals sol) = N /\ (forall i, (i < N)%nat -> tv i = t0 + INR i * h) /\
    (Z.to_nat order <= N)%nat /\ t1 <= tv (N - 1)%nat /\ (N = Z.to_nat order \/ tv (N - 1)%nat < t1 + h).
  Proof.
    intros Hr N tv. destruct (ab_starting _ _ _ _ _ _ _ _ _ _ Hr) as (Ho & Hk & _). destruct (ab_grid _ _ _ _ _ _ _ _ _ _ Hr) as (_ & Eg & He & Hs).
    cbv zeta in Eg, He, Hs. rewrite fitted_R in Eg, He, Hs. fold h in Eg, He, Hs. assert (EN : N = length (bo_y_vals sol)) by (unfold N; rewrite Eg, grid_length; reflexivity).
    assert (Ht : forall i, (i < N)%nat -> tv i = t0 + INR i * h) by (intros i Hi; unfold tv; rewrite Eg, grid_nth by (rewrite <- EN; exact Hi); apply gtime_R).
    rewrite <- EN in He, Hs, Hk |- * . split; [reflexivity|]. split; [exact Ht|]. split; [exact Hk|].
    rewrite gtime_R in He. apply Rltb_f in He. rewrite Ht by lia. split; [exact He|].
    destruct (Nat.eq_dec N (Z.to_nat order)) as [E|E]; [left; exact E|right]. specialize (Hs (N - 1)%nat ltac:(lia)). rewrite gtime_R in Hs. apply Rltb_t in Hs.
    replace (N - 1)%nat with (S (N - 1 - 1)) by lia. rewrite S_INR. lra.
  Qed.
  Lemma bdf_times : bdf fuel F t0 t1 y0 order dt w = (w', Ok sol) -> (1 <= order <= 6)%Z ->
    let N := length (bo_t_vals sol) in let tv i := nth i (bo_t_vals sol) 0 in
    length (bo_y_vals sol) = N /\ (forall i, (i < N)%nat -> tv i = t0 + INR i * h) /\
    (Z.to_nat order < N)%nat /\ (N = S (Z.to_nat order) \/ tv (N - 1)%nat < t1 + h) /\
    (bo_status sol = SUCCESS /\ t1 <= tv (N - 1)%nat \/ bo_status sol = INTERNAL_SOLVE_FAILURE /\ tv (N - 1)%nat < t1).
  Proof.
    intros Hr Ho N tv. destruct (bdf_starting _ _ _ _ _ _ _ _ _ _ Hr Ho) as (Hk & _). destruct (bdf_grid _ _ _ _ _ _ _ _ _ _ Hr Ho) as (Eg & Hs & He).
    cbv zeta in Eg, He, Hs. rewrite fitted_R in Eg, He, Hs. fold h in Eg, He, Hs. assert (EN : N = length (bo_y_vals sol)) by (unfold N; rewrite Eg, grid_length; reflexivity).
    assert (Ht : forall i, (i < N)%nat -> tv i = t0 + INR i * h) by (intros i Hi; unfold tv; rewrite Eg, grid_nth by (rewrite <- EN; exact Hi); apply gtime_R).
    rewrite <- EN in He, Hs, Hk |- * . split; [reflexivity|]. split; [exact Ht|]. split; [lia|]. rewrite Ht by lia. split.
    - destruct (Nat.eq_dec N (S (Z.to_nat order))) as [E|E]; [left; exact E|right]. specialize (Hs (N - 1)%nat ltac:(lia)). rewrite gtime_R in Hs. apply Rltb_t in Hs.
      replace (N - 1)%nat with (S (N - 1 - 1)) by lia. rewrite S_INR. lra.
    - destruct He as [[E1 E2]|[E1 E2]]; [left|right]; (split; [exact E1|]); rewrite gtime_R in E2; [apply Rltb_f in E2|apply Rltb_t in E2]; exact E2.
  Qed.
End TimesR.

Section AdamsR.
  Context {LA : LinAlg R} {HE : Env R} {St : Type}.
  Variables (F : functor R St) (f : R -> list R -> list R).
  Hypothesis Hf : computes F f.
  Variables (fuel : nat) (t0 t1 : R) (y0 : list R) (order : Z) (dt : R) (w w' : world R St) (sol : basic_output R).
  Hypothesis Hr : adams_bashforth fuel F t0 t1 y0 order dt w = (w', Ok sol).
  Hypothesis Ho : (order <= 5)%Z.
  Let h := Rmin dt (t1 - t0).
  Let k := Z.to_nat order.
  Let ys := bo_y_vals sol.

  Lemma ab_formula :
    (forall i, (i < length ys)%nat -> length (yval ys i) = length y0) /\
    forall i, (k <= i < length ys)%nat -> ab_step_at_one_time (length y0) k f (nth (i - 1) (bo_t_vals sol) 0) h ys i.
  Proof.
    destruct (ab_run _ _ _ _ _ _ _ _ _ _ Hr) as (Ho1 & _ & [S1 S2 S3 S4 S5]). rewrite fitted_R in S2, S4. fold h k ys in S1, S2, S3, S4.
    assert (Hst : forall i, (k <= i < length ys)%nat -> length (yval ys i) = length (yval ys (i - 1)) /\
      forall q, ventry (yval ys i) q = ventry (yval ys (i - 1)) q + h * Rsum k (fun j => ab_weight k j * ventry (f (nth (i - 1) (bo_t_vals sol) 0) (yval ys (i - 1 - j))) q)).
    { intros i Hi. destruct (S4 i Hi) as [(b & v & v' & Hb & Hs) _].
      assert (Li : length (firstn i ys) = i) by (apply firstn_length_le; lia).
      apply (ab_step_R F f Hf order b (rev (firstn i ys))) in Hs; [|lia|exact Hb|rewrite rev_length, Li; unfold k in Hi; lia].
      fold k in Hs. fold (yval ys i) in Hs. rewrite last_firstn in Hs by (unfold k in Hi; lia). destruct Hs as [K1 K2]. split; [exact K1|]. intros q. rewrite K2.
      rewrite S2, grid_nth by (unfold k in Hi; lia). f_equal. f_equal. apply Rsum_ext. intros j Hj. rewrite nth_rev_list by lia. rewrite Li.
      fold (yval (firstn i ys) (i - 1 - j)). rewrite yval_firstn by lia. reflexivity. }
    assert (Hlen : forall i, (i < length ys)%nat -> length (yval ys i) = length y0).
    { induction i as [i IH] using (well_founded_induction lt_wf). intros Hi. destruct (le_lt_dec k i) as [Hk|Hk].
      - destruct (Hst i (conj Hk Hi)) as [E _]. rewrite E. apply IH; unfold k in Hk; lia.
      - rewrite (first_yval y0 ys k i S3 Hk). reflexivity. }
    split; [exact Hlen|]. intros i Hi. destruct (Hst i Hi) as [K1 K2]. split; [apply Hlen; lia|]. intros p _. apply K2.
  Qed.

  Lemma ab_order_bounds : (1 <= k <= 5)%nat.
  Proof. destruct (ab_starting _ _ _ _ _ _ _ _ _ _ Hr) as (Ho1 & _). unfold k. lia. Qed.

  (** for right-hand sides of t alone: Euler's method *)
  Lemma ab_is_euler g : (forall t y, length y = length y0 -> f t y = g t) ->
    forall i, (k <= i < length ys)%nat -> forall p, (p < length y0)%nat ->
    ventry (yval ys i) p = ventry (yval ys (i - 1)) p + h * ventry (g (nth (i - 1) (bo_t_vals sol) 0)) p.
  Proof.
    intros Hg i Hi p Hp. destruct ab_formula as [Hlen Hst]. destruct (Hst i Hi) as [_ K]. rewrite (K p Hp). pose proof ab_order_bounds as Hk.
    rewrite (Rsum_ext k _ (fun j => ventry (g (nth (i - 1) (bo_t_vals sol) 0)) p * ab_weight k j)).
    - rewrite Rsum_scal, ab_weights_sum by exact Hk. ring.
    - intros j Hj. rewrite Hg by (apply Hlen; lia). ring.
  Qed.

  Lemma ab_values (P : list R -> Prop) : P y0 -> (forall i, (k <= i < length ys)%nat -> (forall j, (j < i)%nat -> P (yval ys j)) -> P (yval ys i)) ->
    forall i, (i < length ys)%nat -> P (yval ys i).
  Proof.
    intros H0 Hs. destruct (ab_starting _ _ _ _ _ _ _ _ _ _ Hr) as (_ & _ & S3 & _).
    induction i as [i IH] using (well_founded_induction lt_wf). intros Hi. destruct (le_lt_dec k i) as [Hk|Hk].
    - apply Hs; [lia|]. intros j Hj. apply IH; lia.
    - rewrite (first_yval y0 ys k i S3 Hk). exact H0.
  Qed.

  Lemma ab_invariant wt : (forall t y, length y = length y0 -> Rsum (length y0) (fun q => wt q * ventry (f t y) q) = 0) ->
    forall i, (i < length ys)%nat -> Rsum (length y0) (fun q => wt q * ventry (yval ys i) q) = Rsum (length y0) (fun q => wt q * ventry y0 q).
  Proof.
    intros Hw. destruct ab_formula as [Hlen Hst]. apply (ab_values (fun y => Rsum (length y0) (fun q => wt q * ventry y q) = Rsum (length y0) (fun q => wt q * ventry y0 q))); [reflexivity|].
    intros i Hi IH. pose proof ab_order_bounds as Hk. destruct (Hst i Hi) as [_ K]. rewrite <- (IH (i - 1)%nat) by lia.
    rewrite (Rsum_ext (length y0) (fun q => wt q * ventry (yval ys i) q)
      (fun q => wt q * ventry (yval ys (i - 1)) q + h * Rsum k (fun j => ab_weight k j * (wt q * ventry (f (nth (i - 1) (bo_t_vals sol) 0) (yval ys (i - 1 - j))) q)))).
    - rewrite Rsum_plus, Rsum_scal, Rsum_swap.
      rewrite (Rsum_ext k _ (fun _ => 0)); [rewrite (Rsum_0 _ (fun _ => 0)); [ring|reflexivity]|]. intros j Hj. rewrite Rsum_scal, Hw by (apply Hlen; lia). ring.
    - intros q Hq. rewrite (K q Hq), Rmult_plus_distr_l. f_equal. rewrite <- Rmult_assoc, (Rmult_comm (wt q) h), Rmult_assoc. f_equal.
      rewrite <- Rsum_scal. apply Rsum_ext. intros j Hj. ring.
  Qed.

  Lemma ab_equilibrium : (forall t p, (p < length y0)%nat -> ventry (f t y0) p = 0) -> ys = repeat y0 (length ys).
  Proof.
    intros H0. destruct ab_formula as [Hlen Hst].
    assert (Hall : forall i, (i < length ys)%nat -> yval ys i = y0).
    { apply (ab_values (fun y => y = y0)); [reflexivity|]. intros i Hi IH. pose proof ab_order_bounds as Hk. destruct (Hst i Hi) as [L K].
      apply vec_ext; [exact L|]. rewrite L. intros p Hp. rewrite (K p Hp), (IH (i - 1)%nat) by lia.
      rewrite (Rsum_ext k _ (fun _ => 0)); [rewrite (Rsum_0 _ (fun _ => 0)); [ring|reflexivity]|]. intros j Hj. rewrite IH by lia. rewrite H0 by exact Hp. ring. }
    apply (list_ext (@nil R)); [rewrite repeat_length; reflexivity|]. intros i Hi. fold (yval ys i). rewrite Hall by exact Hi.
    symmetry. apply (nth_error_nth (repeat y0 (length ys)) i []), nth_error_repeat', Hi.
  Qed.
End AdamsR.

(** an invertible matrix 1 - c J has no kernel *)
Lemma kernel_zero n c J e : invertible (bdf_matrix n c J) ->
  (forall p, (p < n)%nat -> ventry e p - c * Rsum n (fun q => mentry J p q * ventry e q) = 0) -> forall p, (p < n)%nat -> ventry e p = 0.
Proof.
  intros (C & C1 & C2 & C3 & C4) He p Hp. unfold bdf_matrix in C1, C2, C3, C4. rewrite mtab_nrows in * .
  assert (E : Rsum n (fun i => mentry C p i * (ventry e i - c * Rsum n (fun q => mentry J i q * ventry e q))) = ventry e p).
  { rewrite (Rsum_ext n _ (fun i => Rsum n (fun q => mentry C p i * mentry (mtab n n (fun p q => delta p q - c * mentry J p q)) i q * ventry e q))).
    - rewrite Rsum_swap. rewrite (Rsum_ext n _ (fun q => delta p q * ventry e q)).
      + apply delta_sum, Hp.
      + intros q Hq. rewrite Rsum_scal_r. destruct (C4 p q Hp Hq) as [_ D]. f_equal. exact D.
    - intros i Hi. rewrite <- Rsum_scal. 
      transitivity (mentry C p i * Rsum n (fun q => delta i q * ventry e q - c * (mentry J i q * ventry e q))).
      + rewrite Rsum_minus, Rsum_scal, (delta_sum n i (ventry e) Hi). reflexivity.
      + rewrite <- Rsum_scal. apply Rsum_ext. intros q Hq. rewrite mentry_vt by assumption. ring. }
  rewrite <- E. rewrite (Rsum_ext n _ (fun _ => 0)) by (intros i Hi; rewrite He by exact Hi; ring). apply Rsum_0. reflexivity.
Qed.

Section BdfR.
  Context {LA : LinAlg R} {HP : ExactProducts LA} {HX : ExactSolve LA} {HE : Env R} {St : Type}.
  Variables (F : functor R St) (f : R -> list R -> list R).
  Hypothesis Hf : computes F f.
  Hypothesis HJ : jac_matrices F.
  Variables (fuel : nat) (t0 t1 : R) (y0 : list R) (order : Z) (dt : R) (w w' : world R St) (sol : basic_output R).
  Hypothesis Hr : bdf fuel F t0 t1 y0 order dt w = (w', Ok sol).
  Hypothesis Ho : (1 <= order <= 6)%Z.
  Let h := Rmin dt (t1 - t0).
  Let k := Z.to_nat order.
  Let n := length y0.
  Let ys := bo_y_vals sol.
  Hypothesis Hinv : forall t y J, jac_answers F t y J -> nrows J = n -> ncols J = n -> invertible (bdf_matrix n (h * bdf_beta k) J).

  (** Newton's iteration for value number i, in terms of the recorded values *)
  Local Notation iteration := (bdf_iteration F n k f t0 h ys).

  Lemma residual_firstn i t x p : (k < i <= length ys)%nat -> bdf_residual k f t h (firstn i ys) (length (firstn i ys)) x p = bdf_residual k f t h ys i x p.
  Proof.
    intros Hi. unfold bdf_residual. rewrite firstn_length_le by lia. f_equal. f_equal. apply Rsum_ext. intros j Hj. rewrite yval_firstn by (unfold k in *; lia). reflexivity.
  Qed.
  Lemma chain_iteration i xs es : (k < i <= length ys)%nat -> newton_chain F f order n h (firstn i ys) (gtime t0 h (i - 1)) xs es -> iteration i xs es.
  Proof.
    intros Hi (L & Ex & Hc). split; [exact L|]. split; [rewrite Ex; apply last_firstn; lia|]. intros l Hl.
    destruct (Hc l Hl) as (A1 & A2 & A3 & J & A4 & A41 & A42 & A5 & A6).
    assert (Et : gtime t0 h (i - 1) + h = t0 + INR i * h).
    { rewrite gtime_R. replace i with (S (i - 1)) at 2 by lia. rewrite S_INR. ring. }
    rewrite Et in A4, A5. split; [exact A1|]. split; [exact A2|]. split; [exact A3|]. exists J. split; [exact A4|]. split; [exact A41|]. split; [exact A42|]. split; [|exact A6].
    intros p Hp. fold k in A5. rewrite (A5 p Hp), residual_firstn by exact Hi. reflexivity.
  Qed.

  Lemma bdf_start : (k < length ys)%nat /\ firstn (S k) ys = repeat y0 (S k).
  Proof. destruct (bdf_starting _ _ _ _ _ _ _ _ _ _ Hr Ho) as (S1 & S2 & _). split; [exact S1|exact S2]. Qed.

  (** every value beyond the starting ones is the end of a convergent Newton iteration *)
  Lemma bdf_newton : (forall i, (i < length ys)%nat -> length (yval ys i) = n) /\
    forall i, (k < i < length ys)%nat -> exists xs es, iteration i xs es /\ (1 <= length es < 500)%nat /\ yval ys i = last xs [] /\
      (forall l, (S l < length es)%nat -> ~ la_norminf (nth l es []) < 1 / 10000000000) /\ la_norminf (last es []) < 1 / 10000000000.
  Proof.
    destruct (bdf_run _ _ _ _ _ _ _ _ _ _ Hr Ho) as (_ & [S1 S2 S3 S4 S5]). rewrite fitted_R in S4. fold h k n ys in S1, S3, S4.
    destruct bdf_start as [B1 B2].
    assert (Hst : forall i, (k < i < length ys)%nat -> length (yval ys (i - 1)) = n -> exists xs es, newton_chain F f order n h (firstn i ys) (gtime t0 h (i - 1)) xs es /\ (1 <= length es < 500)%nat /\ yval ys i = last xs [] /\
      (forall l, (S l < length es)%nat -> ~ la_norminf (nth l es []) < 1 / 10000000000) /\ la_norminf (last es []) < 1 / 10000000000).
    { intros i Hi Hn. destruct (S4 i) as [Hs _]; [unfold k in *; lia|]. 
      refine (bdf_step_R F f Hf HJ order n h Ho Hinv (firstn i ys) _ _ _ _ Hs); [rewrite firstn_length_le; unfold k in *; lia|rewrite last_firstn by lia; exact Hn]. }
    assert (Hlen : forall i, (i < length ys)%nat -> length (yval ys i) = n).
    { induction i as [i IH] using (well_founded_induction lt_wf). intros Hi. destruct (le_lt_dec (S k) i) as [Hk|Hk].
      - destruct (Hst i) as (xs & es & H1 & H2 & H3 & _); [lia|apply IH; lia|]. rewrite H3. eapply chain_length; [exact Ho|exact Hinv|exact H1|lia].
      - rewrite (first_yval y0 ys (S k) i B2 Hk). reflexivity. }
    split; [exact Hlen|]. intros i Hi. destruct (Hst i Hi) as (xs & es & H1 & H2 & H3 & H4 & H5); [apply Hlen; lia|].
    exists xs, es. split; [apply chain_iteration; [lia|exact H1]|]. auto.
  Qed.
  (** INTERNAL_SOLVE_FAILURE: 500 iterations without convergence *)
  Lemma bdf_failure : bo_status sol = INTERNAL_SOLVE_FAILURE ->
    exists xs es, iteration (length ys) xs es /\ length es = 500%nat /\ forall l, (S l < length es)%nat -> ~ la_norminf (nth l es []) < 1 / 10000000000.
  Proof.
    intros Est. destruct bdf_newton as [Hlen _]. destruct bdf_start as [B1 B2].
    destruct (bdf_run _ _ _ _ _ _ _ _ _ _ Hr Ho) as (_ & [S1 S2 S3 S4 S5]). rewrite fitted_R in S5. fold h k n ys in S1, S3, S5. cbv zeta in S5.
    destruct S5 as [[S5 _]|(_ & _ & S5)]; [rewrite S5 in Est; discriminate|].
    assert (Ef : firstn (length ys) ys = ys) by apply firstn_all.
    destruct (bdf_stop_R F f Hf HJ order n h Ho Hinv ys (gtime t0 h (length ys - 1))) as (xs & es & H1 & H2 & H3).
    - fold k. lia.
    - rewrite last_nth. apply Hlen. lia.
    - exact S5.
    - exists xs, es. split; [|auto]. apply chain_iteration; [lia|]. rewrite Ef. exact H1.
  Qed.

  Lemma bdf_newton_both : (forall i, (i < length ys)%nat -> length (yval ys i) = n) /\
    (forall i, (k < i < length ys)%nat -> exists xs es, iteration i xs es /\ (1 <= length es < 500)%nat /\ yval ys i = last xs [] /\
      (forall l, (S l < length es)%nat -> ~ la_norminf (nth l es []) < 1 / 10000000000) /\ la_norminf (last es []) < 1 / 10000000000) /\
    (bo_status sol = INTERNAL_SOLVE_FAILURE ->
     exists xs es, iteration (length ys) xs es /\ length es = 500%nat /\ forall l, (S l < length es)%nat -> ~ la_norminf (nth l es []) < 1 / 10000000000).
  Proof. destruct bdf_newton as [K1 K2]. split; [exact K1|]. split; [exact K2|exact bdf_failure]. Qed.

  Lemma iteration_end i xs es : iteration i xs es -> (1 <= length es)%nat ->
    bdf_newton_step F n k f (t0 + INR i * h) h ys i (nth (length es - 1) xs []) (last xs []) (last es []).
  Proof.
    intros (L & _ & Hc) H1. rewrite !last_nth, L. replace (S (length es) - 1)%nat with (S (length es - 1)) by lia. apply Hc. lia.
  Qed.

  Lemma bdf_values (P : list R -> Prop) : P y0 -> (forall i, (k < i < length ys)%nat -> (forall j, (j < i)%nat -> P (yval ys j)) -> P (yval ys i)) ->
    forall i, (i < length ys)%nat -> P (yval ys i).
  Proof.
    intros H0 Hs. destruct bdf_start as [_ S3].
    induction i as [i IH] using (well_founded_induction lt_wf). intros Hi. destruct (le_lt_dec (S k) i) as [Hk|Hk].
    - apply Hs; [lia|]. intros j Hj. apply IH; lia.
    - rewrite (first_yval y0 ys (S k) i S3 Hk). exact H0.
  Qed.
  Lemma bdf_k : (1 <= k <= 6)%nat. Proof. unfold k. lia. Qed.

  (** right-hand sides that are affine in y *)
  Section Affine.
    Variables (A : R -> nat -> nat -> R) (g : R -> nat -> R).
    Hypothesis Haff : forall t y p, length y = n -> (p < n)%nat -> ventry (f t y) p = Rsum n (fun q => A t p q * ventry y q) + g t p.
    Hypothesis HAJ : forall t y J, jac_answers F t y J -> forall p q, (p < n)%nat -> (q < n)%nat -> mentry J p q = A t p q.

    Lemma affine_step i t x x' e : bdf_newton_step F n k f t h ys i x x' e -> forall p, (p < n)%nat -> bdf_residual k f t h ys i x' p = 0.
    Proof.
      intros (L1 & L2 & L3 & J & J1 & _ & _ & J2 & J3) p Hp. specialize (J2 p Hp). unfold bdf_residual in * . rewrite Haff in J2 by assumption. rewrite Haff by assumption. rewrite J3 by exact Hp.
      rewrite (Rsum_ext n (fun q => mentry J p q * ventry e q) (fun q => A t p q * ventry e q)) in J2 by (intros q Hq; rewrite (HAJ _ _ _ J1) by assumption; reflexivity).
      rewrite (Rsum_ext n (fun q => A t p q * ventry x' q) (fun q => A t p q * ventry x q + A t p q * ventry e q)) by (intros q Hq; rewrite J3 by exact Hq; ring).
      rewrite Rsum_plus. lra.
    Qed.
    Lemma bdf_affine i : (k < i < length ys)%nat -> forall p, (p < n)%nat -> bdf_residual k f (t0 + INR i * h) h ys i (yval ys i) p = 0.
    Proof.
      intros Hi. destruct bdf_newton as [_ Hn]. destruct (Hn i Hi) as (xs & es & H1 & H2 & H3 & _). rewrite H3.
      apply (affine_step i _ _ _ _ (iteration_end i xs es H1 ltac:(lia))).
    Qed.
    Lemma bdf_affine_succeeds {HN : ExactNorm LA} : bo_status sol = SUCCESS.
    Proof.
      destruct (bdf_grid _ _ _ _ _ _ _ _ _ _ Hr Ho) as (_ & _ & [[E _]|[E _]]); [exact E|]. exfalso.
      destruct (bdf_failure E) as (xs & es & (L & Ex & Hc) & H2 & H3).
      pose proof (affine_step _ _ _ _ _ (Hc 0%nat ltac:(lia))) as R0. pose proof (Hc 1%nat ltac:(lia)) as (L1 & L2 & L3 & J & J1 & Jr & Jc & J2 & J3).
      apply (H3 1%nat); [lia|]. set (e := nth 1 es []) in * .
      assert (E0 : forall p, (p < n)%nat -> ventry e p = 0).
      { apply (kernel_zero n (h * bdf_beta k) J e (Hinv _ _ _ J1 Jr Jc)). intros p Hp. rewrite (J2 p Hp), (R0 p Hp). ring. }
      destruct (exact_norminf e) as [_ [[_ ->]|(a & Ha & ->)]]; [lra|].
      apply (In_nth _ _ 0) in Ha. destruct Ha as (p & Hp & <-). fold (ventry e p). rewrite E0 by lia. rewrite Rabs_R0. lra.
    Qed.
    Lemma bdf_affine_both0 {HN : ExactNorm LA} : bo_status sol = SUCCESS /\
      forall i, (k < i < length ys)%nat -> forall p, (p < n)%nat -> bdf_residual k f (t0 + INR i * h) h ys i (yval ys i) p = 0.
    Proof. split; [exact bdf_affine_succeeds|exact bdf_affine]. Qed.
  End Affine.

  (** linear functionals the slopes do not change *)
  Section Linear.
    Variable wt : nat -> R.
    Hypothesis Hwf : forall t y, length y = n -> Rsum n (fun p => wt p * ventry (f t y) p) = 0.
    Hypothesis HwJ : forall t y J, jac_answers F t y J -> nrows J = n -> ncols J = n -> forall q, (q < n)%nat -> Rsum n (fun p => wt p * mentry J p q) = 0.
    Let tot (y : list R) : R := Rsum n (fun p => wt p * ventry y p).

    Lemma linear_step i t x x' e : bdf_newton_step F n k f t h ys i x x' e ->
      tot x' = - Rsum k (fun j => bdf_weight k j * tot (yval ys (i - 1 - j))).
    Proof.
      intros (L1 & L2 & L3 & J & J1 & Jr & Jc & J2 & J3). unfold tot.
      rewrite (Rsum_ext n (fun p => wt p * ventry x' p) (fun p => wt p * ventry x p + wt p * ventry e p)) by (intros p Hp; rewrite J3 by exact Hp; ring).
      rewrite Rsum_plus.
      assert (Ee : Rsum n (fun p => wt p * ventry e p) = Rsum n (fun p => wt p * - bdf_residual k f t h ys i x p)).
      { rewrite (Rsum_ext n (fun p => wt p * - bdf_residual k f t h ys i x p) (fun p => wt p * ventry e p - h * bdf_beta k * (wt p * Rsum n (fun q => mentry J p q * ventry e q)))).
        - rewrite Rsum_minus, Rsum_scal.
          assert (Ez : Rsum n (fun p => wt p * Rsum n (fun q => mentry J p q * ventry e q)) = 0).
          { rewrite (Rsum_ext n _ (fun p => Rsum n (fun q => wt p * mentry J p q * ventry e q))) by (intros p Hp; rewrite <- Rsum_scal; apply Rsum_ext; intros q Hq; ring).
            rewrite Rsum_swap. rewrite (Rsum_ext n _ (fun q => 0)); [apply Rsum_0; reflexivity|]. intros q Hq.
            rewrite Rsum_scal_r. rewrite (HwJ _ _ _ J1 Jr Jc q Hq). ring. }
          rewrite Ez. ring.
        - intros p Hp. rewrite <- J2 by exact Hp. ring. }
      rewrite Ee. unfold bdf_residual.
      rewrite (Rsum_ext n (fun p => wt p * - (ventry x p + Rsum k (fun j => bdf_weight k j * ventry (yval ys (i - 1 - j)) p) - h * bdf_beta k * ventry (f t x) p))
        (fun p => h * bdf_beta k * (wt p * ventry (f t x) p) - (wt p * ventry x p + wt p * Rsum k (fun j => bdf_weight k j * ventry (yval ys (i - 1 - j)) p)))) by (intros p Hp; ring).
      rewrite Rsum_minus, Rsum_plus, Rsum_scal, (Hwf t x L1).
      rewrite (Rsum_ext n (fun p => wt p * Rsum k (fun j => bdf_weight k j * ventry (yval ys (i - 1 - j)) p)) (fun p => Rsum k (fun j => bdf_weight k j * (wt p * ventry (yval ys (i - 1 - j)) p)))) by (intros p Hp; rewrite <- Rsum_scal; apply Rsum_ext; intros q Hq; ring).
      rewrite Rsum_swap. rewrite (Rsum_ext k (fun j => Rsum n (fun p => bdf_weight k j * (wt p * ventry (yval ys (i - 1 - j)) p))) (fun j => bdf_weight k j * Rsum n (fun p => wt p * ventry (yval ys (i - 1 - j)) p))) by (intros j Hj; apply Rsum_scal).
      ring.
    Qed.
    Lemma bdf_invariant : forall i, (i < length ys)%nat -> tot (yval ys i) = tot y0.
    Proof.
      apply (bdf_values (fun y => tot y = tot y0)); [reflexivity|]. intros i Hi IH. destruct bdf_newton as [_ Hn]. destruct (Hn i Hi) as (xs & es & H1 & H2 & H3 & _).
      rewrite H3, (linear_step i _ _ _ _ (iteration_end i xs es H1 ltac:(lia))).
      rewrite (Rsum_ext k _ (fun j => bdf_weight k j * tot y0)) by (intros j Hj; rewrite IH by lia; reflexivity).
      rewrite Rsum_scal_r, (bdf_weights_sum k bdf_k). ring.
    Qed.
  End Linear.

  (** equilibria *)
  Lemma bdf_equilibrium : (forall t, f t y0 = vtab n (fun _ => 0)) -> forall i, (i < length ys)%nat -> yval ys i = y0.
  Proof.
    intros Hz. apply (bdf_values (fun y => y = y0)); [reflexivity|]. intros i Hi IH. destruct bdf_newton as [_ Hn]. destruct (Hn i Hi) as (xs & es & H1 & H2 & H3 & _).
    rewrite H3. destruct H1 as (L & Ex & Hc).
    assert (HP' : forall l, (l <= length es)%nat -> nth l xs [] = y0).
    { induction l as [|l IHl]; intros Hl; [rewrite Ex; apply IH; lia|]. specialize (IHl ltac:(lia)).
      destruct (Hc l ltac:(lia)) as (L1 & L2 & L3 & J & J1 & Jr & Jc & J2 & J3). rewrite IHl in J1, J2, J3.
      assert (E0 : forall p, (p < n)%nat -> ventry (nth l es []) p = 0).
      { apply (kernel_zero n (h * bdf_beta k) J _ (Hinv _ _ _ J1 Jr Jc)). intros p Hp. rewrite (J2 p Hp). unfold bdf_residual. rewrite Hz, ventry_vt by exact Hp.
        rewrite (Rsum_ext k _ (fun j => bdf_weight k j * ventry y0 p)) by (intros j Hj; rewrite IH by lia; reflexivity).
        rewrite Rsum_scal_r, (bdf_weights_sum k bdf_k). ring. }
      apply (nth_ext _ _ 0 0); [rewrite L3; reflexivity|]. intros p Hp. rewrite L3 in Hp. fold (ventry (nth (S l) xs []) p) (ventry y0 p). rewrite J3, E0 by exact Hp. ring. }
    rewrite last_nth. apply HP'. lia.
  Qed.
End BdfR.
Definition bdf_affine_both (LA : LinAlg R) (HP : ExactProducts LA) (HX : ExactSolve LA) (HN : ExactNorm LA) (HE : Env R) (St : Type) F f Hf HJ fuel t0 t1 y0 order dt w w' sol Hr Ho Hinv A g Haff HAJ :=
  @bdf_affine_both0 LA HP HX HE St F f Hf HJ fuel t0 t1 y0 order dt w w' sol Hr Ho Hinv A g Haff HAJ HN.
