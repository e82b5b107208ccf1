(** Continuous dependence of implicit runs on the data (C140). *)
From Coq Require Import Reals Lra Sorting.Sorted ClassicalEpsilon.
From Verif Require Import Model.Base Model.Scalar Model.LinAlg Model.Enums Model.Options Model.Coeffs Model.IrkCoeffs Model.Newton Model.Irk.
From Verif Require Import Spec.Sums Spec.Trees Spec.RkSpec Spec.Observe Spec.NewtonSpec Spec.IrkSpec Spec.IrkRunSpec Spec.Methods Spec.ConvergenceSpec.
From Verif Require Import Proofs.SumsProofs Proofs.RVec Proofs.OrderProofs Proofs.TablesGeneric Proofs.TablesFinal Proofs.Nodes Proofs.IrkRun Proofs.IrkResults Proofs.IrkInverse Proofs.IrkFinal Proofs.IrkExact Proofs.OrderTheory Proofs.Convergence Proofs.Picard Proofs.ConvergenceErk Proofs.Neumann Proofs.ConvergenceIrk Proofs.ConvergenceAb Proofs.IrkLipschitz.
Local Open Scope R_scope.

(** differences that grow by a factor and two sources in every step *)
Lemma pair_recurrence (N : nat) (ts e : nat -> R) lam P B e0 : 0 <= lam -> 0 <= P -> 0 <= B -> 0 <= e0 -> e 0%nat <= e0 ->
  (forall k, (k < N)%nat -> 0 <= ts (S k) - ts k /\ 0 <= e k) ->
  (forall k, (k < N)%nat -> e (S k) <= (1 + lam * (ts (S k) - ts k)) * e k + P * (ts (S k) - ts k) + B) ->
  forall k, (k <= N)%nat -> 0 <= ts k - ts 0%nat /\ e k <= exp (lam * (ts k - ts 0%nat)) * (e0 + P * (ts k - ts 0%nat) + INR k * B).
Proof.
  intros Hl HP HB He0 H0 Hs He. induction k as [|k IH]; intros Hk.
  - split; [lra|]. cbn [INR]. replace (ts 0%nat - ts 0%nat) with 0 by ring. rewrite !Rmult_0_r, exp_0. lra.
  - destruct (IH ltac:(lia)) as [I1 I2]. destruct (Hs k ltac:(lia)) as [S1 S2]. specialize (He k ltac:(lia)). split; [lra|]. set (h := ts (S k) - ts k) in * . set (d := ts k - ts 0%nat) in * .
    replace (ts (S k) - ts 0%nat) with (d + h) by (unfold d, h; ring). rewrite S_INR, (Rmult_plus_distr_l lam), exp_plus.
    pose proof (exp_ineq1_le (lam * h)) as X. pose proof (exp_pos (lam * d)) as Y. assert (0 <= lam * h) by (apply Rmult_le_pos; lra). assert (0 <= lam * d) by (apply Rmult_le_pos; lra).
    pose proof (exp_ineq1_le (lam * d)) as X2. set (p := exp (lam * d)) in * . set (q := exp (lam * h)) in * . set (W := e0 + P * d + INR k * B) in * .
    assert (HPd : 0 <= P * d) by (apply Rmult_le_pos; lra). pose proof (Rmult_le_pos _ _ (pos_INR k) HB).
    assert (W0 : 0 <= W) by (unfold W; lra). assert (PW : 0 <= p * W) by (apply Rmult_le_pos; lra).
    assert (E1 : (1 + lam * h) * e k <= q * (p * W)).
    { apply Rle_trans with ((1 + lam * h) * (p * W)); [apply Rmult_le_compat_l; lra|]. apply Rmult_le_compat_r; lra. }
    assert (V0 : 0 <= P * h + B) by (apply Rplus_le_le_0_compat; [apply Rmult_le_pos; lra|exact HB]).
    assert (E3 : P * h + B <= p * q * (P * h + B)).
    { rewrite <- (Rmult_1_l (P * h + B)) at 1. apply Rmult_le_compat_r; [exact V0|]. rewrite <- (Rmult_1_l 1). apply Rmult_le_compat; lra. }
    replace (p * q * (e0 + P * (d + h) + (INR k + 1) * B)) with (q * (p * W) + p * q * (P * h + B)) by (unfold W; ring). lra.
Qed.

(** what one recorded step is: stages with small defects, and weights that combine them *)
Definition near_step (n s : nat) (a : nat -> nat -> R) (b c : nat -> R) (f : R -> list R -> list R) (t h rho : R) (y yn : list R) : Prop :=
  exists Y d, length Y = (s * n)%nat /\ length y = n /\ stage_weights s a b d /\
    (forall i p, (i < s)%nat -> (p < n)%nat -> Rabs (stage_defect n s a c f t h y Y i p) <= rho) /\
    (forall p, (p < n)%nat -> ventry yn p - (ventry y p + h * Rsum s (fun j => b j * ventry (stage_slope n c f t h y Y j) p)) = Rsum s (fun i => d i * stage_defect n s a c f t h y Y i p)).

Section Step.
  Variables (n s : nat) (a : nat -> nat -> R) (b c : nat -> R) (f g : R -> list R -> list R) (L D de t0 t1 : R).
  Hypotheses (HL : 0 <= L) (HD : 0 <= D) (Hde : 0 <= de) (Hlip : lipschitz_in n L t0 t1 f).
  Hypothesis Hfg : forall t y q, t0 <= t <= t1 -> length y = n -> (q < n)%nat -> Rabs (ventry (f t y) q - ventry (g t y) q) <= de.
  Hypotheses (Hc : forall i, (i < s)%nat -> 0 <= c i <= 1) (Hw : forall d, stage_weights s a b d -> Rsum s (fun i => Rabs (d i)) <= D).
  Local Notation asum := (asum s a).
  Local Notation bsum := (bsum s b).
  Lemma two_steps t h y z yn zn rho e : t0 <= t -> t + h <= t1 -> 0 <= h <= 1 -> h * asum * L <= 1 / 2 -> h * asum * 2 <= 1 -> 0 <= rho -> 0 <= e ->
    near_step n s a b c f t h rho y yn -> near_step n s a b c g t h rho z zn -> (forall q, (q < n)%nat -> Rabs (ventry y q - ventry z q) <= e) ->
    forall q, (q < n)%nat -> Rabs (ventry yn q - ventry zn q) <= (1 + 2 * bsum * L * h) * e + (bsum * (1 + L)) * de * h + (2 * D + 4 * L * bsum) * rho.
  Proof using HL HD Hde Hlip Hfg Hc Hw.
    intros Ht Hth Hh Hal Ha2 Hrho He (Y & d & LY & Ly & Hd & Hdef & Hfin) (Z & d' & LZ & Lz & Hd' & Hdef' & Hfin') Hyz q Hq.
    pose proof (asum_pos s a) as Ha. pose proof (bsum_pos s b) as Hbs.
    assert (N : forall j, (j < s)%nat -> 0 <= c j * h <= h) by (intros j Hj; apply (node_range s c Hc h Hh j Hj)).
    destruct (finite_max2 s n (fun i p => ventry Y (n * i + p) - ventry Z (n * i + p))) as (k & Hk & K1 & K2).
    assert (HSl : forall j p, (j < s)%nat -> (p < n)%nat -> Rabs (ventry (stage_slope n c f t h y Y j) p - ventry (stage_slope n c g t h z Z j) p) <= L * (e + k) + de).
    { intros j p Hj Hp. specialize (N j Hj). unfold stage_slope. set (tj := t + c j * h) in * . assert (Htj : t0 <= tj <= t1) by (unfold tj; lra).
      pose proof (Hlip tj (stage_point n y Y j) (stage_point n z Z j) (e + k) Htj (vtab_length _ _) (vtab_length _ _)) as Q.
      specialize (Q ltac:(intros i Hi; unfold stage_point; rewrite !ventry_vt by exact Hi;
        replace (ventry y i + ventry Y (n * j + i) - (ventry z i + ventry Z (n * j + i))) with ((ventry y i - ventry z i) + (ventry Y (n * j + i) - ventry Z (n * j + i))) by ring;
        eapply Rle_trans; [apply Rabs_triang|]; apply Rplus_le_compat; [apply Hyz, Hi|apply (K1 j i Hj Hi)]) p Hp).
      pose proof (Hfg tj (stage_point n z Z j) p Htj (vtab_length _ _) Hp) as Q2.
      replace (ventry (f tj (stage_point n y Y j)) p - ventry (g tj (stage_point n z Z j)) p) with
        ((ventry (f tj (stage_point n y Y j)) p - ventry (f tj (stage_point n z Z j)) p) + (ventry (f tj (stage_point n z Z j)) p - ventry (g tj (stage_point n z Z j)) p)) by ring.
      eapply Rle_trans; [apply Rabs_triang|]. apply Rplus_le_compat; assumption. }
    assert (HLe : 0 <= L * e) by (apply Rmult_le_pos; assumption). assert (HLk : 0 <= L * k) by (apply Rmult_le_pos; assumption). assert (HLd : 0 <= L * de) by (apply Rmult_le_pos; assumption). assert (HLr : 0 <= L * rho) by (apply Rmult_le_pos; assumption).
    assert (HE : 0 <= L * (e + k) + de) by (rewrite Rmult_plus_distr_l; lra).
    assert (Hha : 0 <= h * asum) by (apply Rmult_le_pos; lra).
    assert (Hkb : k <= 4 * rho + 2 * (h * asum) * (L * e + de)).
    { assert (G : forall i p, (i < s)%nat -> (p < n)%nat -> Rabs (ventry Y (n * i + p) - ventry Z (n * i + p)) <= 2 * rho + h * asum * (L * e + de) + 1 / 2 * k).
      { intros i p Hi Hp. replace (ventry Y (n * i + p) - ventry Z (n * i + p)) with ((stage_defect n s a c f t h y Y i p + - stage_defect n s a c g t h z Z i p) +
          h * Rsum s (fun j => a i j * (ventry (stage_slope n c f t h y Y j) p - ventry (stage_slope n c g t h z Z j) p))).
        2:{ unfold stage_defect. rewrite (Rsum_ext s (fun j => a i j * (ventry (stage_slope n c f t h y Y j) p - ventry (stage_slope n c g t h z Z j) p)) (fun j => a i j * ventry (stage_slope n c f t h y Y j) p - a i j * ventry (stage_slope n c g t h z Z j) p)) by (intros; ring). rewrite Rsum_minus. ring. }
        eapply Rle_trans; [apply Rabs_triang|]. pose proof (Rabs_triang (stage_defect n s a c f t h y Y i p) (- stage_defect n s a c g t h z Z i p)) as T. rewrite Rabs_Ropp in T. specialize (Hdef i p Hi Hp). specialize (Hdef' i p Hi Hp).
        assert (T2 : Rabs (h * Rsum s (fun j => a i j * (ventry (stage_slope n c f t h y Y j) p - ventry (stage_slope n c g t h z Z j) p))) <= h * (asum * (L * (e + k) + de))).
        { rewrite Rabs_mult, (Rabs_pos_eq h) by lra. apply Rmult_le_compat_l; [lra|]. apply (rows_le s a); [exact Hi|exact HE|]. intros j Hj. apply HSl; assumption. }
        replace (h * (asum * (L * (e + k) + de))) with (h * asum * (L * e + de) + h * asum * L * k) in T2 by ring. assert (h * asum * L * k <= 1 / 2 * k) by (apply Rmult_le_compat_r; assumption). lra. }
      destruct K2 as [-> |(i & p & Hi & Hp & Ek)].
      - assert (0 <= h * asum * (L * e + de)) by (apply Rmult_le_pos; lra). lra.
      - specialize (G i p Hi Hp). rewrite <- Ek in G. lra. }
    assert (HB : L * (e + k) + de <= 2 * L * e + 4 * L * rho + (1 + L) * de).
    { assert (X : L * k <= L * (4 * rho + 2 * (h * asum) * (L * e + de))) by (apply Rmult_le_compat_l; assumption).
      replace (L * (4 * rho + 2 * (h * asum) * (L * e + de))) with (4 * L * rho + 2 * (h * asum * L) * (L * e) + h * asum * 2 * (L * de)) in X by ring.
      assert (2 * (h * asum * L) * (L * e) <= 1 * (L * e)) by (apply Rmult_le_compat_r; lra). assert (h * asum * 2 * (L * de) <= 1 * (L * de)) by (apply Rmult_le_compat_r; lra). lra. }
    specialize (Hfin q Hq). specialize (Hfin' q Hq).
    replace (ventry yn q - ventry zn q) with ((ventry y q - ventry z q) + h * Rsum s (fun j => b j * (ventry (stage_slope n c f t h y Y j) q - ventry (stage_slope n c g t h z Z j) q))
      + Rsum s (fun i => d i * stage_defect n s a c f t h y Y i q) + - Rsum s (fun i => d' i * stage_defect n s a c g t h z Z i q)).
    2:{ rewrite <- Hfin, <- Hfin'. rewrite (Rsum_ext s (fun j => b j * (ventry (stage_slope n c f t h y Y j) q - ventry (stage_slope n c g t h z Z j) q)) (fun j => b j * ventry (stage_slope n c f t h y Y j) q - b j * ventry (stage_slope n c g t h z Z j) q)) by (intros; ring). rewrite Rsum_minus. ring. }
    assert (G1 : Rabs (h * Rsum s (fun j => b j * (ventry (stage_slope n c f t h y Y j) q - ventry (stage_slope n c g t h z Z j) q))) <= h * (bsum * (2 * L * e + 4 * L * rho + (1 + L) * de))).
    { rewrite Rabs_mult, (Rabs_pos_eq h) by lra. apply Rmult_le_compat_l; [lra|]. eapply Rle_trans; [apply Rsum_abs|]. unfold IrkLipschitz.bsum. rewrite <- Rsum_scal_r. apply Rsum_le. intros j Hj. rewrite Rabs_mult. apply Rmult_le_compat_l; [apply Rabs_pos|].
      eapply Rle_trans; [apply HSl; assumption|exact HB]. }
    assert (G2 : forall w (H0 : stage_weights s a b w) (v : nat -> R), (forall i, (i < s)%nat -> Rabs (v i) <= rho) -> Rabs (Rsum s (fun i => w i * v i)) <= D * rho).
    { intros w Hww v Hv. eapply Rle_trans; [apply Rsum_abs|]. apply Rle_trans with (Rsum s (fun i => Rabs (w i) * rho)).
      - apply Rsum_le. intros i Hi. rewrite Rabs_mult. apply Rmult_le_compat_l; [apply Rabs_pos|]. apply Hv, Hi.
      - rewrite Rsum_scal_r. apply Rmult_le_compat_r; [exact Hrho|]. apply Hw, Hww. }
    pose proof (G2 d Hd (fun i => stage_defect n s a c f t h y Y i q) (fun i Hi => Hdef i q Hi Hq)) as G3. pose proof (G2 d' Hd' (fun i => stage_defect n s a c g t h z Z i q) (fun i Hi => Hdef' i q Hi Hq)) as G4.
    eapply Rle_trans; [apply Rabs_triang|]. rewrite Rabs_Ropp. eapply Rle_trans; [apply Rplus_le_compat_r, Rabs_triang|]. eapply Rle_trans; [apply Rplus_le_compat_r, Rplus_le_compat_r, Rabs_triang|].
    pose proof (Hyz q Hq) as G0. assert (0 <= bsum * (L * rho)) by (apply Rmult_le_pos; assumption). assert (h * (4 * (bsum * (L * rho))) <= 1 * (4 * (bsum * (L * rho)))) by (apply Rmult_le_compat_r; lra). lra.
  Qed.
End Step.

Section Run.
Context {HE : Env R} {LA : LinAlg R} {HP : ExactProducts LA} {HX : ExactSolve LA} {HLU : ExactLU LA} {HI : ExactInverse LA} {St : Type}.
Lemma run_near (F : functor R St) f m sc n L t0 t1 y0 : In m implicit_runnable -> irk_get_coefficients m = Ok sc -> t0 < t1 -> 0 <= L -> length y0 = n -> lipschitz_in n L t0 t1 f ->
  (forall i, (i < length (sc_b sc))%nat -> 0 <= vfun (sc_c sc) i <= 1) ->
  computes F f -> jac_matrices F -> jac_bounded F n L t0 t1 ->
  forall fuel opts oo nopts dt w w' sol tau, (ndebug = false \/ 0 < dt) -> irk_odeint fuel F t0 t1 y0 opts oo m dt w = (w', Ok sol) ->
  store_in_vectors oo = true -> output_interval oo = 1%Z -> io_newton opts = Some nopts -> Rabs (o_tol nopts) <= tau -> Rabs (o_dx_delta nopts) <= tau ->
  let ts := io_t_vals sol in let ys := io_y_vals sol in let s := length (sc_b sc) in let a := mfun (sc_A sc) in
  length ys = length ts /\ (0 < length ts)%nat /\ nth 0 ts 0 = t0 /\ nth 0 ys [] = y0 /\ StronglySorted Rlt ts /\ (forall t, In t ts -> t0 <= t <= t1) /\
  forall k, (S k < length ts)%nat -> let h := nth (S k) ts 0 - nth k ts 0 in h <= 1 -> h * asum s a * (INR n * L) < 1 ->
    near_step n s a (vfun (sc_b sc)) (vfun (sc_c sc)) f (nth k ts 0) h (c1 n L s a * tau) (nth k ys []) (nth (S k) ys []).
Proof.
  intros Hrn Hg Ht HL Hn Hlip Hc HF HJm HJb fuel opts oo nopts dt w w' sol tau Hdt Hrun Hst1 Hint Hno Htol Hdx ts ys s a.
  assert (Hdt' : ndebug = false \/ (t0 < t1 /\ 0 < dt)) by (destruct Hdt; [left|right; split]; assumption).
  destruct (irk_accepted_steps F f HF HJm _ _ _ _ _ _ _ _ _ _ _ Hdt' Hrun) as (sc' & nopts' & atts & Hg' & Hno' & Hrec & Hch & Hacc).
  rewrite Hg in Hg'. injection Hg' as <-. rewrite Hno in Hno'. injection Hno' as <-. rewrite Hn in Hacc.
  destruct (irk_times F _ _ _ _ _ _ _ _ _ _ _ Hdt' Hrun ltac:(lra)) as (T1 & T2 & _). rewrite Forall_forall in T2.
  destruct Hrec as (R1 & R2 & _). rewrite Hst1 in R1, R2. unfold shown in R1, R2. rewrite Hint, every_one in R1, R2.
  set (acc := ended Accepted atts) in * . fold ts in R1, T1, T2. fold ys in R2.
  assert (Lt : length ts = S (length acc)) by (rewrite R1; simpl; rewrite map_length; reflexivity).
  assert (Ly : length ys = S (length acc)) by (rewrite R2; simpl; rewrite map_length; reflexivity).
  split; [congruence|]. split; [lia|]. split; [rewrite R1; reflexivity|]. split; [rewrite R2; reflexivity|]. split; [exact T1|]. split; [exact T2|].
  intros i Hi h Hh1 Hsm. destruct (nth_error acc i) as [x|] eqn:Ex; [|apply nth_error_None in Ex; lia].
  destruct (accepted_nth _ _ _ _ _ Hch Ex) as (X1 & X2 & X3 & X4). fold acc in X1, X2, X3, X4. rewrite <- R1 in X1, X3. rewrite <- R2 in X2, X4.
  rewrite (nth_indep ts t0 0) in X1 by lia. rewrite (nth_indep ts t0 0) in X3 by lia. rewrite (nth_indep ys _ []) in X2 by lia. rewrite (nth_indep ys _ []) in X4 by lia.
  destruct (Hacc x (nth_error_In _ _ Ex)) as (Lx & _ & Hx). cbv zeta in Hx. destruct Hx as (Y & d & Y0 & J & e1 & HYl & Hdw & Hynl & _ & HJa & Hnew & Hcr & Hfin & _).
  fold s a in HYl, Hdw, Hnew, Hcr, Hfin. unfold ia_end in X3. simpl in X3.
  assert (B1 : t0 <= ia_t x <= t1) by (rewrite X1; apply T2, nth_In; lia). assert (B2 : t0 <= ia_t x + ia_dt x <= t1) by (rewrite X3; apply T2, nth_In; lia).
  assert (Eh : h = ia_dt x) by (unfold h; rewrite <- X3, <- X1; ring). pose proof (sorted_nth ts T1 i Hi) as Hpos. fold ts in Hpos. assert (Hh : 0 <= h <= 1) by (unfold h in * ; lra).
  clearbody h. subst h. rewrite <- X1, <- X2, <- X4. exists Y, d. split; [exact HYl|]. split; [exact Lx|]. split; [exact Hdw|]. split; [|exact Hfin].
  exact (newton_defect n s a (vfun (sc_c sc)) f L t0 t1 HL Hlip Hc (ia_t x) (ia_dt x) (ia_y x) Hh (proj1 B1) (proj2 B2) J Y0 Y e1 (o_tol nopts) (o_dx_delta nopts) tau
      (fun p0 q0 Hp0 Hq0 => HJb _ _ _ B1 Lx HJa p0 q0 Hp0 Hq0) Hsm Hnew Hcr Htol Hdx).
Qed.
End Run.

Section Dependence.
Context {HE : Env R}.
Theorem irk_dependence m n L T : In m implicit_runnable -> 0 <= L -> 0 < T -> exists h0 C, 0 < h0 /\ 0 <= C /\
  forall f g t0 t1 e de, t1 - t0 = T -> lipschitz_in n L t0 t1 f -> lipschitz_in n L t0 t1 g ->
  (forall t y q, t0 <= t <= t1 -> length y = n -> (q < n)%nat -> Rabs (ventry (f t y) q - ventry (g t y) q) <= de) ->
  forall (L1 L2 : LinAlg R) (P1 : ExactProducts L1) (X1 : ExactSolve L1) (U1 : ExactLU L1) (I1 : ExactInverse L1)
    (P2 : ExactProducts L2) (X2 : ExactSolve L2) (U2 : ExactLU L2) (I2 : ExactInverse L2) (S1 S2 : Type) (F : functor R S1) (G : functor R S2),
  computes F f -> jac_matrices F -> jac_bounded F n L t0 t1 -> computes G g -> jac_matrices G -> jac_bounded G n L t0 t1 ->
  forall fu1 y o1 oo1 n1 d1 w1 w1' r1 fu2 z o2 oo2 n2 d2 w2 w2' r2 H tau, 0 < d1 -> 0 < d2 -> length y = n -> length z = n ->
  @irk_odeint R RScalar L1 HE S1 fu1 F t0 t1 y o1 oo1 m d1 w1 = (w1', Ok r1) ->
  @irk_odeint R RScalar L2 HE S2 fu2 G t0 t1 z o2 oo2 m d2 w2 = (w2', Ok r2) ->
  store_in_vectors oo1 = true -> output_interval oo1 = 1%Z -> store_in_vectors oo2 = true -> output_interval oo2 = 1%Z ->
  io_newton o1 = Some n1 -> Rabs (o_tol n1) <= tau -> Rabs (o_dx_delta n1) <= tau -> io_newton o2 = Some n2 -> Rabs (o_tol n2) <= tau -> Rabs (o_dx_delta n2) <= tau ->
  (forall q, (q < n)%nat -> Rabs (ventry y q - ventry z q) <= e) -> io_t_vals r2 = io_t_vals r1 -> steps_at_most H (io_t_vals r1) -> H <= h0 ->
  forall k q, (k < length (io_t_vals r1))%nat -> (q < n)%nat ->
  Rabs (ventry (nth k (io_y_vals r1) []) q - ventry (nth k (io_y_vals r2) []) q) <= C * (e + de + INR k * tau).
Proof.
  intros Hrn HL HT. destruct (Nat.eq_dec n 0) as [-> |Hn0]; [exists 1, 0; split; [lra|]; split; [lra|]; intros; lia|].
  destruct (irk_get_ok (T := R) m) as (sc & Hg & Htab & Hdims).
  assert (Hdd : length (sc_b sc) = irk_stages m /\ length (sc_c sc) = irk_stages m /\ nrows (sc_A sc) = irk_stages m).
  { unfold dims_ok in Hdims. rewrite !andb_true_iff, !Nat.eqb_eq in Hdims. tauto. }
  destruct Hdd as (Db & Dc & DA). set (s := length (sc_b sc)) in * .
  pose proof (runnable_invertible m sc Hrn Htab) as Hinv. destruct (weights_bounded (sc_A sc) (vfun (sc_b sc)) s ltac:(congruence) Hinv) as (D & HD & Hw).
  set (k1 := c1 n L s (mfun (sc_A sc))). assert (Hk1 : 0 <= k1) by (apply c1_pos; exact HL).
  set (a := mfun (sc_A sc)) in * . set (b := vfun (sc_b sc)) in * . set (c := vfun (sc_c sc)) in * . pose proof (asum_pos s a) as Ha. pose proof (bsum_pos s b) as Hbs.
  assert (Pn : 0 <= asum s a * (INR n * L)) by (apply Rmult_le_pos; [exact Ha|apply Rmult_le_pos; [apply pos_INR|exact HL]]). assert (PL : 0 <= asum s a * L) by (apply Rmult_le_pos; assumption).
  set (sl := 1 + 2 * (asum s a * (INR n * L)) + 2 * (asum s a * L) + 2 * asum s a). assert (Hsl : 1 <= sl) by (unfold sl; lra).
  set (lam := 2 * bsum s b * L). set (P := bsum s b * (1 + L)). set (B := (2 * D + 4 * L * bsum s b) * k1).
  assert (Hlam : 0 <= lam) by (unfold lam; apply Rmult_le_pos; lra). assert (HPp : 0 <= P) by (unfold P; apply Rmult_le_pos; lra).
  assert (HB : 0 <= B) by (unfold B; apply Rmult_le_pos; [|exact Hk1]; assert (0 <= 4 * L * bsum s b) by (apply Rmult_le_pos; lra); lra).
  pose proof (exp_pos (lam * T)) as Hex. exists (/ sl), (exp (lam * T) * (1 + P * T + B)). split; [apply Rinv_0_lt_compat; lra|].
  assert (HPT : 0 <= P * T) by (apply Rmult_le_pos; lra). split; [apply Rmult_le_pos; lra|].
  intros f g t0 t1 e de ET Hlf Hlg Hfg L1 L2 P1 X1 U1 I1 P2 X2 U2 I2 S1 S2 F G HF HJF HbF HG HJG HbG fu1 y o1 oo1 n1 d1 w1 w1' r1 fu2 z o2 oo2 n2 d2 w2 w2' r2 H tau Hd1 Hd2 Ly Lz R1 R2 Hs1 Hi1 Hs2 Hi2 N1 Nt1 Nx1 N2 Nt2 Nx2 Hyz Ets Hsteps HH.
  assert (Ht : t0 < t1) by lra.
  assert (Hc : forall i, (i < s)%nat -> 0 <= c i <= 1).
  { intros i Hi. pose proof (irk_nodes HE m sc Htab) as Hn. rewrite Forall_forall in Hn. apply Hn. apply nth_In. lia. }
  assert (Htau : 0 <= tau) by (pose proof (Rabs_pos (o_tol n1)); lra).
  assert (He : 0 <= e) by (pose proof (Hyz O ltac:(lia)); pose proof (Rabs_pos (ventry y 0 - ventry z 0)); lra).
  assert (Hde : 0 <= de) by (pose proof (Hfg t0 y O ltac:(lra) Ly ltac:(lia)); pose proof (Rabs_pos (ventry (f t0 y) 0 - ventry (g t0 y) 0)); lra).
  destruct (run_near (LA := L1) F f m sc n L t0 t1 y Hrn Hg Ht HL Ly Hlf Hc HF HJF HbF fu1 o1 oo1 n1 d1 w1 w1' r1 tau (or_intror Hd1) R1 Hs1 Hi1 N1 Nt1 Nx1) as (A1 & A2 & A3 & A4 & A5 & A6 & A7).
  destruct (run_near (LA := L2) G g m sc n L t0 t1 z Hrn Hg Ht HL Lz Hlg Hc HG HJG HbG fu2 o2 oo2 n2 d2 w2 w2' r2 tau (or_intror Hd2) R2 Hs2 Hi2 N2 Nt2 Nx2) as (B1 & B2 & B3 & B4 & B5 & B6 & B7).
  rewrite Ets in B1, B2, B3, B5, B6, B7. set (ts := io_t_vals r1) in * . set (ys := io_y_vals r1) in * . set (zs := io_y_vals r2) in * . fold s a b c in A7, B7. change (c1 n L s a) with k1 in A7, B7.
  pose (dd := fun k => proj1_sig (constructive_indefinite_description _ (finite_max n (fun q => ventry (nth k ys []) q - ventry (nth k zs []) q)))).
  assert (Hem : forall k, 0 <= dd k /\ (forall q, (q < n)%nat -> Rabs (ventry (nth k ys []) q - ventry (nth k zs []) q) <= dd k) /\ (dd k = 0 \/ exists q, (q < n)%nat /\ dd k = Rabs (ventry (nth k ys []) q - ventry (nth k zs []) q))).
  { intros k. unfold dd. destruct (constructive_indefinite_description _ _) as (x & Hx). exact Hx. }
  assert (Hrho : 0 <= k1 * tau) by (apply Rmult_le_pos; assumption).
  assert (Hrec : forall k, (k < length ts - 1)%nat -> dd (S k) <= (1 + lam * (nth (S k) ts 0 - nth k ts 0)) * dd k + (P * de) * (nth (S k) ts 0 - nth k ts 0) + B * tau).
  { intros k Hk. pose proof (sorted_nth ts A5 k ltac:(lia)) as Hpos. pose proof (Hsteps k ltac:(lia)) as Hst. set (h := nth (S k) ts 0 - nth k ts 0) in * .
    assert (Hhs : h * sl <= 1). { apply Rmult_le_reg_r with (/ sl); [apply Rinv_0_lt_compat; lra|]. rewrite Rmult_assoc, Rinv_r, Rmult_1_r, Rmult_1_l by lra. lra. }
    assert (Hh0 : 0 < h) by (unfold h; lra).
    unfold sl in Hhs. assert (Q0 : 0 <= h * (asum s a * (INR n * L))) by (apply Rmult_le_pos; lra). assert (Q1 : 0 <= h * (asum s a * L)) by (apply Rmult_le_pos; lra). assert (Q2 : 0 <= h * asum s a) by (apply Rmult_le_pos; lra).
    assert (Hh1 : 0 <= h <= 1) by lra.
    assert (M1 : t0 <= nth k ts 0 <= t1) by (apply A6, nth_In; lia). assert (M2 : t0 <= nth (S k) ts 0 <= t1) by (apply A6, nth_In; lia).
    assert (Hsm : h * asum s a * (INR n * L) < 1) by lra. pose proof (A7 k ltac:(lia) (proj2 Hh1) Hsm) as V1. pose proof (B7 k ltac:(lia) (proj2 Hh1) Hsm) as V2. fold h in V1, V2.
    destruct (Hem k) as (E0 & Ek & _). destruct (Hem (S k)) as (_ & _ & E3).
    assert (Hnn : 0 <= (1 + lam * h) * dd k + P * de * h + B * tau).
    { assert (0 <= lam * h) by (apply Rmult_le_pos; lra). apply Rplus_le_le_0_compat; [apply Rplus_le_le_0_compat|]; [apply Rmult_le_pos; lra|apply Rmult_le_pos; [apply Rmult_le_pos|]; lra|apply Rmult_le_pos; assumption]. }
    destruct E3 as [-> |(q & Hq & ->)]; [exact Hnn|].
    pose proof (two_steps n s a b c f g L D de t0 t1 HL HD Hde Hlf Hfg Hc Hw (nth k ts 0) h (nth k ys []) (nth k zs []) (nth (S k) ys []) (nth (S k) zs []) (k1 * tau) (dd k) (proj1 M1) ltac:(unfold h; lra) Hh1 ltac:(lra) ltac:(lra) Hrho E0 V1 V2 Ek q Hq) as V.
    eapply Rle_trans; [exact V|]. right. unfold lam, P, B. ring. }
  intros k q Hk Hq. destruct (pair_recurrence (length ts - 1) (fun k => nth k ts 0) dd lam (P * de) (B * tau) e Hlam (Rmult_le_pos _ _ HPp Hde) (Rmult_le_pos _ _ HB Htau) He) with (k := k) as [F1 F2].
  - destruct (Hem O) as (_ & _ & [E0|(q' & Hq' & E0)]); rewrite E0; [exact He|]. rewrite A4, B4. apply Hyz, Hq'.
  - intros i Hi. pose proof (sorted_nth ts A5 i ltac:(lia)). split; [lra|apply Hem].
  - exact Hrec.
  - lia.
  - cbv beta in F1, F2. eapply Rle_trans; [apply Hem; exact Hq|]. eapply Rle_trans; [exact F2|]. rewrite A3 in F1 |- * . assert (F3 : nth k ts 0 - t0 <= T) by (assert (t0 <= nth k ts 0 <= t1) by (apply A6, nth_In; lia); lra).
    set (u := nth k ts 0 - t0) in * . pose proof (pos_INR k) as Pk. pose proof (Rmult_le_pos _ _ Pk Htau) as Pkt.
    rewrite (Rmult_assoc (exp (lam * T))). pose proof (Rmult_le_pos _ _ HPp Hde) as HPd. apply Rmult_le_compat; [left; apply exp_pos| | |].
    + apply Rplus_le_le_0_compat; [apply Rplus_le_le_0_compat; [exact He|apply Rmult_le_pos; assumption]|]. apply Rmult_le_pos; [exact Pk|apply Rmult_le_pos; assumption].
    + apply exp_mono. apply Rmult_le_compat_l; assumption.
    + assert (P * de * u <= P * de * T) by (apply Rmult_le_compat_l; assumption). assert (0 <= P * T * (e + INR k * tau)) by (apply Rmult_le_pos; lra).
      assert (0 <= B * (e + de)) by (apply Rmult_le_pos; lra). lra.
Qed.
(** the same problem and initial value: only the tolerance is left *)
Theorem irk_states_from_times m n L T : In m implicit_runnable -> 0 <= L -> 0 < T -> exists h0 C, 0 < h0 /\ 0 <= C /\
  forall f t0 t1, t1 - t0 = T -> lipschitz_in n L t0 t1 f ->
  forall (L1 L2 : LinAlg R) (P1 : ExactProducts L1) (X1 : ExactSolve L1) (U1 : ExactLU L1) (I1 : ExactInverse L1)
    (P2 : ExactProducts L2) (X2 : ExactSolve L2) (U2 : ExactLU L2) (I2 : ExactInverse L2) (S1 S2 : Type) (F : functor R S1) (G : functor R S2),
  computes F f -> jac_matrices F -> jac_bounded F n L t0 t1 -> computes G f -> jac_matrices G -> jac_bounded G n L t0 t1 ->
  forall fu1 y o1 oo1 n1 d1 w1 w1' r1 fu2 o2 oo2 n2 d2 w2 w2' r2 H tau, 0 < d1 -> 0 < d2 -> length y = n ->
  @irk_odeint R RScalar L1 HE S1 fu1 F t0 t1 y o1 oo1 m d1 w1 = (w1', Ok r1) ->
  @irk_odeint R RScalar L2 HE S2 fu2 G t0 t1 y o2 oo2 m d2 w2 = (w2', Ok r2) ->
  store_in_vectors oo1 = true -> output_interval oo1 = 1%Z -> store_in_vectors oo2 = true -> output_interval oo2 = 1%Z ->
  io_newton o1 = Some n1 -> Rabs (o_tol n1) <= tau -> Rabs (o_dx_delta n1) <= tau -> io_newton o2 = Some n2 -> Rabs (o_tol n2) <= tau -> Rabs (o_dx_delta n2) <= tau ->
  io_t_vals r2 = io_t_vals r1 -> steps_at_most H (io_t_vals r1) -> H <= h0 ->
  forall k q, (k < length (io_t_vals r1))%nat -> (q < n)%nat ->
  Rabs (ventry (nth k (io_y_vals r1) []) q - ventry (nth k (io_y_vals r2) []) q) <= C * (INR k * tau).
Proof.
  intros Hm HL HT. destruct (irk_dependence m n L T Hm HL HT) as (h0 & C & H0 & HC & D). exists h0, C. split; [exact H0|]. split; [exact HC|].
  intros f t0 t1 ET Hl L1 L2 P1 X1 U1 I1 P2 X2 U2 I2 S1 S2 F G HF JF BF HG JG BG fu1 y o1 oo1 n1 d1 w1 w1' r1 fu2 o2 oo2 n2 d2 w2 w2' r2 H tau Hd1 Hd2 Ly R1 R2 s1 i1 s2 i2 N1 T1 D1 N2 T2 D2 Et Hst HH k q Hk Hq.
  replace (INR k * tau) with (0 + 0 + INR k * tau) by ring.
  assert (Z0 : forall v : R, Rabs (v - v) <= 0) by (intros v; rewrite Rminus_diag_eq, Rabs_R0 by reflexivity; apply Rle_refl).
  exact (D f f t0 t1 0 0 ET Hl Hl (fun t y q _ _ _ => Z0 _) L1 L2 P1 X1 U1 I1 P2 X2 U2 I2 S1 S2 F G HF JF BF HG JG BG fu1 y o1 oo1 n1 d1 w1 w1' r1 fu2 y o2 oo2 n2 d2 w2 w2' r2 H tau Hd1 Hd2 Ly Ly R1 R2 s1 i1 s2 i2 N1 T1 D1 N2 T2 D2 (fun q _ => Z0 _) Et Hst HH k q Hk Hq).
Qed.
End Dependence.
