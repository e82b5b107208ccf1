(** Convergence of the implicit integrator on problems that are not smooth (C136). *)
From Coq Require Import Reals Lra Sorting.Sorted ClassicalEpsilon.
From Verif Require Import Model.Base Model.Scalar Model.LinAlg Model.Enums Model.Options Model.Coeffs Model.IrkCoeffs Model.Newton Model.Irk.
From Verif Require Import Spec.Sums Spec.Trees Spec.RkSpec Spec.Observe Spec.NewtonSpec Spec.IrkSpec Spec.IrkRunSpec Spec.Methods Spec.ConvergenceSpec.
From Verif Require Import Proofs.SumsProofs Proofs.RVec Proofs.OrderProofs Proofs.TablesGeneric Proofs.TablesFinal Proofs.Nodes Proofs.IrkRun Proofs.IrkResults Proofs.IrkInverse Proofs.IrkFinal Proofs.IrkExact Proofs.OrderTheory Proofs.Convergence Proofs.Picard Proofs.ConvergenceErk Proofs.Neumann Proofs.ConvergenceIrk Proofs.ConvergenceAb.
Local Open Scope R_scope.

(** errors that grow by a factor and a source in every step *)
Lemma step_recurrence (N : nat) (ts e : nat -> R) lam A B H : 0 <= lam -> 0 <= A -> 0 <= B -> 0 <= H -> e 0%nat <= 0 ->
  (forall k, (k < N)%nat -> 0 <= ts (S k) - ts k <= H /\ 0 <= e k) ->
  (forall k, (k < N)%nat -> e (S k) <= (1 + lam * (ts (S k) - ts k)) * e k + A * (ts (S k) - ts k) * (ts (S k) - ts k) + B) ->
  forall k, (k <= N)%nat -> 0 <= ts k - ts 0%nat /\ e k <= exp (lam * (ts k - ts 0%nat)) * (A * H * (ts k - ts 0%nat) + INR k * B).
Proof.
  intros Hl HA HB HH H0 Hs He. induction k as [|k IH]; intros Hk.
  - split; [lra|]. cbn [INR]. replace (A * H * (ts 0%nat - ts 0%nat) + 0 * B) with 0 by ring. lra.
  - destruct (IH ltac:(lia)) as [I1 I2]. destruct (Hs k ltac:(lia)) as [S1 S2]. specialize (He k ltac:(lia)). split; [lra|]. set (h := ts (S k) - ts k) in * . set (d := ts k - ts 0%nat) in * .
    replace (ts (S k) - ts 0%nat) with (d + h) by (unfold d, h; ring). rewrite S_INR, (Rmult_plus_distr_l lam), exp_plus.
    pose proof (exp_ineq1_le (lam * h)) as X. pose proof (exp_pos (lam * d)) as Y. assert (0 <= lam * h) by (apply Rmult_le_pos; lra). assert (0 <= lam * d) by (apply Rmult_le_pos; lra).
    pose proof (exp_ineq1_le (lam * d)) as X2. set (p := exp (lam * d)) in * . set (q := exp (lam * h)) in * . set (W := A * H * d + INR k * B) in * .
    assert (HAH : 0 <= A * H) by (apply Rmult_le_pos; assumption). assert (HAd : 0 <= A * H * d) by (apply Rmult_le_pos; lra). pose proof (Rmult_le_pos _ _ (pos_INR k) HB).
    assert (W0 : 0 <= W) by (unfold W; lra). assert (PW : 0 <= p * W) by (apply Rmult_le_pos; lra).
    assert (E1 : (1 + lam * h) * e k <= q * (p * W)).
    { apply Rle_trans with ((1 + lam * h) * (p * W)); [apply Rmult_le_compat_l; lra|]. apply Rmult_le_compat_r; lra. }
    assert (E2 : A * h * h <= A * H * h) by (apply Rmult_le_compat_r; [lra|]; apply Rmult_le_compat_l; lra).
    assert (V0 : 0 <= A * H * h + B) by (apply Rplus_le_le_0_compat; [apply Rmult_le_pos; lra|exact HB]).
    assert (E3 : A * H * h + B <= p * q * (A * H * h + B)).
    { rewrite <- (Rmult_1_l (A * H * h + B)) at 1. apply Rmult_le_compat_r; [exact V0|]. rewrite <- (Rmult_1_l 1). apply Rmult_le_compat; lra. }
    replace (p * q * (A * H * (d + h) + (INR k + 1) * B)) with (q * (p * W) + p * q * (A * H * h + B)) by (unfold W; ring). lra.
Qed.

Section Step.
  Variables (n s : nat) (a : nat -> nat -> R) (b c : nat -> R) (f : R -> list R -> list R) (phi : R -> list R) (L K M D t0 t1 : R).
  Hypotheses (HL : 0 <= L) (HK : 0 <= K) (HM : 0 <= M) (HD : 0 <= D) (Hlip : lipschitz_in n L t0 t1 f) (Hs : solves n f t0 t1 phi) (Hm : slopes_steady n K M t0 t1 f phi).
  Hypotheses (Hc : forall i, (i < s)%nat -> 0 <= c i <= 1) (Hb : Rsum s b = 1) (Hw : forall d, stage_weights s a b d -> Rsum s (fun i => Rabs (d i)) <= D).
  Local Notation asum := (asum s a).
  Definition bsum := Rsum s (fun j => Rabs (b j)).
  Definition drift := M + L * (2 * asum * (K + L * K) + K).
  Lemma bsum_pos : 0 <= bsum.
  Proof. apply Rsum_nonneg. intros. apply Rabs_pos. Qed.
  Lemma drift_pos : 0 <= drift.
  Proof.
    unfold drift. pose proof (asum_pos s a). assert (0 <= L * K) by (apply Rmult_le_pos; assumption). assert (0 <= 2 * asum * (K + L * K)) by (apply Rmult_le_pos; lra).
    assert (0 <= L * (2 * asum * (K + L * K) + K)) by (apply Rmult_le_pos; lra). lra.
  Qed.
  Lemma lip_step t h y yn d Y rho e : t0 <= t -> t + h <= t1 -> 0 <= h <= 1 -> h * asum * L <= 1 / 2 -> length Y = (s * n)%nat -> length y = n -> stage_weights s a b d ->
    0 <= rho -> 0 <= e -> (forall i p, (i < s)%nat -> (p < n)%nat -> Rabs (stage_defect n s a c f t h y Y i p) <= rho) ->
    (forall p, (p < n)%nat -> ventry yn p - (ventry y p + h * Rsum s (fun j => b j * ventry (stage_slope n c f t h y Y j) p)) = Rsum s (fun i => d i * stage_defect n s a c f t h y Y i p)) ->
    (forall q, (q < n)%nat -> Rabs (ventry y q - ventry (phi t) q) <= e) ->
    forall q, (q < n)%nat -> Rabs (ventry yn q - ventry (phi (t + h)) q) <= (1 + 2 * bsum * L * h) * e + (bsum * drift + M) * h * h + (D + 2 * L * bsum) * rho.
  Proof using HL HK HM HD Hlip Hs Hm Hc Hb Hw.
    intros Ht Hth Hh Hal HYl Hyl Hdw Hrho He Hdef Hyn Hy q Hq. pose proof (asum_pos s a) as Ha. pose proof bsum_pos as Hbs. pose proof drift_pos as Hdr.
    assert (HLe : 0 <= L * e) by (apply Rmult_le_pos; assumption). assert (HLK : 0 <= L * K) by (apply Rmult_le_pos; assumption). assert (HhK : 0 <= K * h) by (apply Rmult_le_pos; lra).
    assert (N : forall j, (j < s)%nat -> 0 <= c j * h <= h) by (intros j Hj; apply (node_range s c Hc h Hh j Hj)).
    assert (P1 : forall j p, (j < s)%nat -> (p < n)%nat -> Rabs (ventry (phi (t + c j * h)) p - ventry (phi t) p) <= K * h).
    { intros j p Hj Hp. specialize (N j Hj). eapply Rle_trans; [apply (phi_lip n f phi t0 t1 K M Hs Hm); lra || exact Hp|]. apply Rmult_le_compat_l; lra. }
    set (B := K + L * (e + K * h)). assert (HB : 0 <= B) by (unfold B; assert (0 <= L * (e + K * h)) by (apply Rmult_le_pos; lra); lra).
    assert (HYb : forall i p, (i < s)%nat -> (p < n)%nat -> Rabs (ventry Y (n * i + p)) <= 2 * (rho + h * asum * B)).
    { apply (stages_bounded n s a c f L t0 t1 HL Hlip Hc t h y Hh Ht Hth Y B rho HYl HB Hrho Hal Hdef). intros j p Hj Hp. specialize (N j Hj).
      pose proof (Hlip (t + c j * h) (vtab n (fun i => ventry y i)) (phi (t + c j * h)) (e + K * h) ltac:(lra) (vtab_length _ _) (proj1 Hs _)) as Q. specialize (Q ltac:(intros i Hi; rewrite ventry_vt by exact Hi;
        replace (ventry y i - ventry (phi (t + c j * h)) i) with ((ventry y i - ventry (phi t) i) + - (ventry (phi (t + c j * h)) i - ventry (phi t) i)) by ring;
        eapply Rle_trans; [apply Rabs_triang|]; rewrite Rabs_Ropp; apply Rplus_le_compat; [apply Hy, Hi|apply P1; assumption]) p Hp).
      pose proof (proj1 (Hm (t + c j * h) (t + c j * h) p ltac:(lra) ltac:(lra) Hp)) as Q2. unfold B.
      replace (ventry (f (t + c j * h) (vtab n (fun i => ventry y i))) p) with (ventry (f (t + c j * h) (phi (t + c j * h))) p + (ventry (f (t + c j * h) (vtab n (fun i => ventry y i))) p - ventry (f (t + c j * h) (phi (t + c j * h))) p)) by ring.
      eapply Rle_trans; [apply Rabs_triang|]. lra. }
    assert (HSl : forall j, (j < s)%nat -> Rabs (ventry (stage_slope n c f t h y Y j) q - ventry (f t (phi t)) q) <= 2 * L * e + 2 * L * rho + h * drift).
    { intros j Hj. specialize (N j Hj). set (tj := t + c j * h) in * .
      pose proof (Hlip tj (stage_point n y Y j) (phi tj) (e + 2 * (rho + h * asum * B) + K * h) ltac:(unfold tj; lra) (vtab_length _ _) (proj1 Hs _)) as Q. specialize (Q ltac:(intros i Hi; unfold stage_point; rewrite ventry_vt by exact Hi;
        replace (ventry y i + ventry Y (n * j + i) - ventry (phi tj) i) with ((ventry y i - ventry (phi t) i) + ventry Y (n * j + i) + - (ventry (phi tj) i - ventry (phi t) i)) by ring;
        eapply Rle_trans; [apply Rabs_triang|]; rewrite Rabs_Ropp; apply Rplus_le_compat; [eapply Rle_trans; [apply Rabs_triang|]; apply Rplus_le_compat; [apply Hy, Hi|apply HYb; assumption]|apply P1; assumption]) q Hq).
      pose proof (proj2 (Hm t tj q ltac:(lra) ltac:(unfold tj; lra) Hq)) as Q2. rewrite (Rabs_pos_eq (tj - t)) in Q2 by (unfold tj; lra).
      assert (Q3 : M * (tj - t) <= M * h) by (apply Rmult_le_compat_l; [exact HM|unfold tj; lra]).
      unfold stage_slope. fold tj. replace (ventry (f tj (stage_point n y Y j)) q - ventry (f t (phi t)) q) with ((ventry (f tj (stage_point n y Y j)) q - ventry (f tj (phi tj)) q) + (ventry (f tj (phi tj)) q - ventry (f t (phi t)) q)) by ring.
      eapply Rle_trans; [apply Rabs_triang|].
      assert (Q4 : L * (e + 2 * (rho + h * asum * B) + K * h) <= 2 * L * e + 2 * L * rho + h * (L * (2 * asum * (K + L * K) + K))).
      { replace (L * (e + 2 * (rho + h * asum * B) + K * h)) with (L * e + 2 * L * rho + 2 * (h * asum * L) * (L * e) + h * (L * (2 * asum * (K + L * (K * h)) + K))) by (unfold B; ring).
        assert (2 * (h * asum * L) * (L * e) <= 1 * (L * e)) by (apply Rmult_le_compat_r; lra).
        assert (h * (L * (2 * asum * (K + L * (K * h)) + K)) <= h * (L * (2 * asum * (K + L * K) + K))).
        { apply Rmult_le_compat_l; [lra|]. apply Rmult_le_compat_l; [exact HL|]. apply Rplus_le_compat_r. apply Rmult_le_compat_l; [lra|]. apply Rplus_le_compat_l. apply Rmult_le_compat_l; [exact HL|].
          rewrite <- (Rmult_1_r K) at 2. apply Rmult_le_compat_l; lra. }
        lra. }
      unfold drift. lra. }
    pose proof (phi_taylor n f phi t0 t1 K M Hs Hm t (t + h) t q Ht ltac:(lra) Hth (or_introl eq_refl) Hq) as Tay. replace (t + h - t) with h in Tay by ring.
    replace (ventry yn q - ventry (phi (t + h)) q) with ((ventry y q - ventry (phi t) q) + h * Rsum s (fun j => b j * (ventry (stage_slope n c f t h y Y j) q - ventry (f t (phi t)) q))
      + - (ventry (phi (t + h)) q - ventry (phi t) q - h * ventry (f t (phi t)) q) + Rsum s (fun i => d i * stage_defect n s a c f t h y Y i q)).
    2:{ rewrite <- (Hyn q Hq). rewrite (Rsum_ext s (fun j => b j * (ventry (stage_slope n c f t h y Y j) q - ventry (f t (phi t)) q)) (fun j => b j * ventry (stage_slope n c f t h y Y j) q - b j * ventry (f t (phi t)) q)) by (intros; ring).
        rewrite Rsum_minus, Rsum_scal_r, Hb. ring. }
    assert (G1 : Rabs (h * Rsum s (fun j => b j * (ventry (stage_slope n c f t h y Y j) q - ventry (f t (phi t)) q))) <= h * (bsum * (2 * L * e + 2 * L * rho + h * drift))).
    { rewrite Rabs_mult, (Rabs_pos_eq h) by lra. apply Rmult_le_compat_l; [lra|]. eapply Rle_trans; [apply Rsum_abs|]. unfold bsum. rewrite <- Rsum_scal_r. apply Rsum_le. intros j Hj. rewrite Rabs_mult. apply Rmult_le_compat_l; [apply Rabs_pos|apply HSl, Hj]. }
    assert (G2 : Rabs (Rsum s (fun i => d i * stage_defect n s a c f t h y Y i q)) <= D * rho).
    { eapply Rle_trans; [apply Rsum_abs|]. apply Rle_trans with (Rsum s (fun i => Rabs (d i) * rho)).
      - apply Rsum_le. intros i Hi. rewrite Rabs_mult. apply Rmult_le_compat_l; [apply Rabs_pos|]. apply Hdef; assumption.
      - rewrite Rsum_scal_r. apply Rmult_le_compat_r; [exact Hrho|]. apply Hw, Hdw. }
    eapply Rle_trans; [apply Rabs_triang|]. eapply Rle_trans; [apply Rplus_le_compat_r, Rabs_triang|]. rewrite Rabs_Ropp. eapply Rle_trans; [apply Rplus_le_compat_r, Rplus_le_compat_r, Rabs_triang|].
    pose proof (Hy q Hq) as G0. assert (0 <= bsum * L * rho) by (apply Rmult_le_pos; [apply Rmult_le_pos; assumption|exact Hrho]).
    assert (h * (2 * (bsum * L * rho)) <= 1 * (2 * (bsum * L * rho))) by (apply Rmult_le_compat_r; lra). lra.
  Qed.
End Step.

Section Converge.
Context {HE : Env R}.
Theorem irk_lipschitz_converges m p n f phi t0 t1 L K M : In (m, p) implicit_orders -> In m implicit_runnable -> t0 < t1 -> 0 <= L ->
  solves n f t0 t1 phi -> lipschitz_in n L t0 t1 f -> slopes_steady n K M t0 t1 f phi ->
  exists h0 C, 0 < h0 /\ 0 <= C /\
  forall (LA : LinAlg R) (HP : ExactProducts LA) (HX : ExactSolve LA) (HLU : ExactLU LA) (HI : ExactInverse LA) (St : Type) (F : functor R St),
  computes F f -> jac_matrices F -> jac_bounded F n L t0 t1 ->
  forall fuel opts oo nopts dt w w' sol H tau, (ndebug = false \/ 0 < dt) -> irk_odeint fuel F t0 t1 (phi t0) opts oo m dt w = (w', Ok sol) ->
  store_in_vectors oo = true -> output_interval oo = 1%Z -> io_newton opts = Some nopts -> Rabs (o_tol nopts) <= tau -> Rabs (o_dx_delta nopts) <= tau ->
  steps_at_most H (io_t_vals sol) -> 0 <= H <= h0 ->
  forall k q, (k < length (io_t_vals sol))%nat -> (q < n)%nat ->
  Rabs (ventry (nth k (io_y_vals sol) []) q - ventry (phi (nth k (io_t_vals sol) 0)) q) <= C * (H + INR k * tau).
Proof.
  intros Hin Hrn Ht HL Hs Hlip Hm.
  destruct (Nat.eq_dec n 0) as [->|Hn0]; [exists 1, 0; split; [lra|]; split; [lra|]; intros; lia|].
  assert (K0 : 0 <= K). { pose proof (proj1 (Hm t0 t0 O ltac:(lra) ltac:(lra) ltac:(lia))). pose proof (Rabs_pos (ventry (f t0 (phi t0)) 0)). lra. }
  assert (M0 : 0 <= M). { pose proof (proj2 (Hm t0 t1 O ltac:(lra) ltac:(lra) ltac:(lia))) as G. rewrite (Rabs_pos_eq (t1 - t0)) in G by lra. pose proof (Rabs_pos (ventry (f t1 (phi t1)) 0 - ventry (f t0 (phi t0)) 0)). nra. }
  destruct (irk_get_ok (T := R) m) as (sc & Hg & Htab & Hdims). destruct (irk_orders_final m p Hin) as (sc' & Hg' & _ & [Ho _]). rewrite Hg in Hg'. injection Hg' as <-.
  assert (Hdd : length (sc_b sc) = irk_stages m /\ length (sc_c sc) = irk_stages m /\ nrows (sc_A sc) = irk_stages m).
  { unfold dims_ok in Hdims. rewrite !andb_true_iff, !Nat.eqb_eq in Hdims. tauto. }
  destruct Hdd as (Db & Dc & DA). set (s := length (sc_b sc)) in * .
  pose proof (runnable_invertible m sc Hrn Htab) as Hinv. destruct (weights_bounded (sc_A sc) (vfun (sc_b sc)) s ltac:(congruence) Hinv) as (D & HD & Hw).
  assert (Hc : forall i, (i < s)%nat -> 0 <= vfun (sc_c sc) i <= 1).
  { intros i Hi. pose proof (irk_nodes HE m sc Htab) as Hn. rewrite Forall_forall in Hn. apply Hn. apply nth_In. lia. }
  assert (Hp1 : (1 <= p)%nat) by (clear - Hin; unfold implicit_orders in Hin; cbn [In] in Hin; repeat (destruct Hin as [Hin|Hin]; [injection Hin as <- <-; lia|]); contradiction).
  assert (HoP : has_order s (mfun (sc_A sc)) (vfun (sc_b sc)) 1) by (intros t Hv; apply Ho; lia).
  pose proof (order_weights _ _ _ _ HoP (le_n 1)) as Hb.
  set (k1 := c1 n L s (mfun (sc_A sc))). assert (Hk1 : 0 <= k1) by (apply c1_pos; exact HL).
  set (a := mfun (sc_A sc)) in * . set (b := vfun (sc_b sc)) in * . set (c := vfun (sc_c sc)) in * . pose proof (asum_pos s a) as Ha.
  assert (Pn : 0 <= asum s a * (INR n * L)) by (apply Rmult_le_pos; [exact Ha|apply Rmult_le_pos; [apply pos_INR|exact HL]]). assert (PL : 0 <= asum s a * L) by (apply Rmult_le_pos; assumption).
  set (sl := 1 + 2 * (asum s a * (INR n * L)) + 2 * (asum s a * L)). assert (Hsl : 1 <= sl) by (unfold sl; lra).
  pose proof (bsum_pos s b) as Hbs. pose proof (drift_pos s a L K M HL K0 M0) as Hdr.
  set (lam := 2 * bsum s b * L). set (A := bsum s b * drift s a L K M + M). set (B := (D + 2 * L * bsum s b) * k1).
  assert (Hlam : 0 <= lam) by (unfold lam; apply Rmult_le_pos; lra). assert (HA : 0 <= A) by (unfold A; assert (0 <= bsum s b * drift s a L K M) by (apply Rmult_le_pos; assumption); lra).
  assert (HB : 0 <= B) by (unfold B; apply Rmult_le_pos; [|exact Hk1]; assert (0 <= 2 * L * bsum s b) by (apply Rmult_le_pos; lra); lra).
  set (T := t1 - t0). assert (HT : 0 < T) by (unfold T; lra). pose proof (exp_pos (lam * T)) as Hex.
  exists (/ sl), (exp (lam * T) * (A * T + B)). split; [apply Rinv_0_lt_compat; lra|]. split; [apply Rmult_le_pos; [lra|]; assert (0 <= A * T) by (apply Rmult_le_pos; lra); lra|].
  intros LA HP HX HLU HI St F HF HJm HJb fuel opts oo nopts dt w w' sol H tau Hdt Hrun Hst1 Hint Hno Htol Hdx Hsteps HH.
  assert (Hn : length (phi t0) = n) by apply Hs.
  assert (Hdt' : ndebug = false \/ (t0 < t1 /\ 0 < dt)) by (destruct Hdt; [left|right; split]; assumption).
  destruct (irk_accepted_steps F f HF HJm _ _ _ _ _ _ _ _ _ _ _ Hdt' Hrun) as (sc' & nopts' & atts & Hg' & Hno' & Hrec & Hch & Hacc).
  rewrite Hg in Hg'. injection Hg' as <-. rewrite Hno in Hno'. injection Hno' as <-. rewrite Hn in Hacc.
  destruct (irk_times F _ _ _ _ _ _ _ _ _ _ _ Hdt' Hrun ltac:(lra)) as (T1 & T2 & _). rewrite Forall_forall in T2.
  destruct Hrec as (R1 & R2 & _). rewrite Hst1 in R1, R2. unfold shown in R1, R2. rewrite Hint, every_one in R1, R2.
  set (acc := ended Accepted atts) in * . set (ts := io_t_vals sol) in * . set (ys := io_y_vals sol) in * .
  assert (Lt : length ts = S (length acc)) by (rewrite R1; simpl; rewrite map_length; reflexivity).
  assert (Ly : length ys = S (length acc)) by (rewrite R2; simpl; rewrite map_length; reflexivity).
  assert (Htau0 : 0 <= tau) by (pose proof (Rabs_pos (o_tol nopts)); lra). assert (Hrho : 0 <= k1 * tau) by (apply Rmult_le_pos; assumption).
  assert (Htsl : forall u, 0 <= u -> u <= / sl -> u * sl <= 1).
  { intros u Hu1 Hu2. apply Rmult_le_reg_r with (/ sl); [apply Rinv_0_lt_compat; lra|]. rewrite Rmult_assoc, Rinv_r, Rmult_1_r, Rmult_1_l by lra. exact Hu2. }
  pose (e := fun k => proj1_sig (constructive_indefinite_description _ (finite_max n (fun q => ventry (nth k ys []) q - ventry (phi (nth k ts 0)) q)))).
  assert (Hem : forall k, 0 <= e k /\ (forall q, (q < n)%nat -> Rabs (ventry (nth k ys []) q - ventry (phi (nth k ts 0)) q) <= e k) /\ (e k = 0 \/ exists q, (q < n)%nat /\ e k = Rabs (ventry (nth k ys []) q - ventry (phi (nth k ts 0)) q))).
  { intros k. unfold e. destruct (constructive_indefinite_description _ _) as (x & Hx). exact Hx. }
  assert (Hsort : forall k, (k < length acc)%nat -> 0 <= nth (S k) ts 0 - nth k ts 0 <= H).
  { intros k Hk. pose proof (sorted_nth ts T1 k ltac:(lia)). split; [lra|]. apply Hsteps. lia. }
  assert (Hrec : forall k, (k < length acc)%nat -> e (S k) <= (1 + lam * (nth (S k) ts 0 - nth k ts 0)) * e k + A * (nth (S k) ts 0 - nth k ts 0) * (nth (S k) ts 0 - nth k ts 0) + B * tau).
  { intros i Hi. destruct (nth_error acc i) as [x|] eqn:Ex; [|apply nth_error_None in Ex; lia].
    destruct (accepted_nth _ _ _ _ _ Hch Ex) as (X1 & X2 & X3 & X4). fold acc in X1, X2, X3, X4. rewrite <- R1 in X1, X3. rewrite <- R2 in X2, X4.
    rewrite (nth_indep ts t0 0) in X1 by lia. rewrite (nth_indep ts t0 0) in X3 by lia. rewrite (nth_indep ys _ []) in X2 by lia. rewrite (nth_indep ys _ []) in X4 by lia.
    destruct (Hacc x (nth_error_In _ _ Ex)) as (Lx & _ & Hx). cbv zeta in Hx. destruct Hx as (Y & d & Y0 & J & e1 & HYl & Hdw & Hynl & _ & HJa & Hnew & Hcr & Hfin & _).
    fold s a b c in HYl, Hdw, Hnew, Hcr, Hfin. unfold ia_end in X3. simpl in X3. specialize (Hsort i Hi).
    assert (B1 : t0 <= ia_t x <= t1) by (rewrite X1; apply T2, nth_In; lia). assert (B2 : t0 <= ia_t x + ia_dt x <= t1) by (rewrite X3; apply T2, nth_In; lia).
    set (h := ia_dt x) in * . assert (Eh : nth (S i) ts 0 - nth i ts 0 = h) by (rewrite <- X3, <- X1; ring). rewrite Eh in Hsort |- * .
    pose proof (Htsl h ltac:(lra) ltac:(lra)) as Hhs. unfold sl in Hhs. assert (Q0 : 0 <= h * (asum s a * (INR n * L))) by (apply Rmult_le_pos; lra). assert (Q1 : 0 <= h * (asum s a * L)) by (apply Rmult_le_pos; lra).
    assert (Hh1 : 0 <= h <= 1) by lra.
    pose proof (newton_defect n s a c f L t0 t1 HL Hlip Hc (ia_t x) h (ia_y x) Hh1 (proj1 B1) (proj2 B2) J Y0 Y e1 (o_tol nopts) (o_dx_delta nopts) tau
      (fun p0 q0 Hp0 Hq0 => HJb _ _ _ B1 Lx HJa p0 q0 Hp0 Hq0) ltac:(lra) Hnew Hcr Htol Hdx) as Hdef. change (1 + asum s a * (INR n * L + L)) with k1 in Hdef.
    destruct (Hem i) as (E0 & E1 & _). destruct (Hem (S i)) as (_ & _ & E2).
    assert (Hnn : 0 <= (1 + lam * h) * e i + A * h * h + B * tau).
    { assert (0 <= lam * h) by (apply Rmult_le_pos; lra). apply Rplus_le_le_0_compat; [apply Rplus_le_le_0_compat|]; [apply Rmult_le_pos; lra|apply Rmult_le_pos; [apply Rmult_le_pos|]; lra|apply Rmult_le_pos; assumption]. }
    destruct E2 as [-> |(q & Hq & ->)]; [exact Hnn|]. rewrite <- X3, <- X4.
    pose proof (lip_step n s a b c f phi L K M D t0 t1 HL K0 M0 HD Hlip Hs Hm Hc Hb Hw (ia_t x) h (ia_y x) (ia_yn x) d Y (k1 * tau) (e i) (proj1 B1) (proj2 B2) Hh1 ltac:(lra) HYl Lx Hdw Hrho E0 Hdef Hfin) as G.
    specialize (G ltac:(rewrite X1, X2; exact E1) q Hq). eapply Rle_trans; [exact G|]. right. unfold lam, A, B. ring. }
  intros k q Hk Hq. destruct (step_recurrence (length acc) (fun k => nth k ts 0) e lam A (B * tau) H Hlam HA (Rmult_le_pos _ _ HB Htau0) (proj1 HH)) with (k := k) as [F1 F2].
  - destruct (Hem O) as (_ & _ & [E|(q' & _ & E)]); rewrite E; [lra|]. rewrite R1, R2. cbn [nth]. replace (_ - _) with 0 by ring. rewrite Rabs_R0. lra.
  - intros i Hi. split; [apply Hsort, Hi|apply Hem].
  - exact Hrec.
  - lia.
  - cbv beta in F1, F2. eapply Rle_trans; [apply Hem; exact Hq|]. eapply Rle_trans; [exact F2|].
    assert (E0 : nth 0 ts 0 = t0) by (rewrite R1; reflexivity). rewrite E0 in F1 |- * . assert (F3 : nth k ts 0 - t0 <= T) by (unfold T; assert (t0 <= nth k ts 0 <= t1) by (apply T2, nth_In; lia); lra).
    set (dd := nth k ts 0 - t0) in * . pose proof (pos_INR k) as Pk. pose proof (Rmult_le_pos _ _ Pk Htau0) as Pkt. assert (HAH : 0 <= A * H) by (apply Rmult_le_pos; lra).
    rewrite (Rmult_assoc (exp (lam * T))). apply Rmult_le_compat; [left; apply exp_pos| | |].
    + apply Rplus_le_le_0_compat; [apply Rmult_le_pos; assumption|]. apply Rmult_le_pos; [exact Pk|apply Rmult_le_pos; assumption].
    + apply exp_mono. apply Rmult_le_compat_l; assumption.
    + assert (A * H * dd <= A * H * T) by (apply Rmult_le_compat_l; assumption). assert (0 <= A * T * (INR k * tau)) by (apply Rmult_le_pos; [apply Rmult_le_pos; lra|exact Pkt]).
      assert (0 <= B * H) by (apply Rmult_le_pos; lra). lra.
Qed.
End Converge.
