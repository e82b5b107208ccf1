(** Explicit runs depend continuously on the data (C126) and converge on problems that are merely Lipschitz (C127). *)
From Coq Require Import Reals Lra Sorted.
From Verif Require Import Model.Base Model.Scalar Model.LinAlg Model.Enums Model.Options Model.Coeffs Model.ErkCoeffs Model.Erk.
From Verif Require Import Spec.Sums Spec.Trees Spec.Observe Spec.RkSpec Spec.ErkSpec Spec.Methods Spec.ConvergenceSpec.
From Verif Require Import Proofs.SumsProofs Proofs.Nodes Proofs.TablesFinal Proofs.ErkProofs Proofs.ErkRun Proofs.ErkGeneric Proofs.ErkReal Proofs.ErkExact Proofs.ErkTotal Proofs.ErkTimes Proofs.ErkFinal.
From Verif Require Import Proofs.Convergence Proofs.ConvergenceErk Proofs.ConvergenceAb Proofs.Mesh Proofs.TablesGeneric Proofs.ErkBounded.
Local Open Scope R_scope.

Definition near (n : nat) (e : R) (y z : list R) : Prop := forall q, (q < n)%nat -> Rabs (ventry y q - ventry z q) <= e.

Lemma geometric s (dist : nat -> R -> Prop) w mu : 0 <= w -> 0 <= mu -> (forall i d d', dist i d -> d <= d' -> dist i d') ->
  (forall i d, (i < s)%nat -> 0 <= d -> (forall j, (j < i)%nat -> dist j d) -> dist i (w + mu * d)) ->
  forall i, (i < s)%nat -> dist i ((1 + mu) ^ s * w).
Proof.
  intros Hw Hmu Hle Hs.
  assert (P : forall i, 1 <= (1 + mu) ^ i) by (intros i; apply pow_R1_Rle; lra).
  assert (Q : forall i j, (j <= i)%nat -> (1 + mu) ^ j <= (1 + mu) ^ i) by (intros; apply Rle_pow; [lra|assumption]).
  assert (A : forall i, (i < s)%nat -> dist i ((1 + mu) ^ i * w)).
  { intros i. induction i as [i IH] using lt_wf_ind. intros Hi. destruct i as [|i].
    - apply (Hle 0%nat (w + mu * 0)); [apply Hs; [exact Hi|lra|intros; lia]|simpl; lra].
    - apply (Hle (S i) (w + mu * ((1 + mu) ^ i * w))).
      + apply Hs; [exact Hi|apply Rmult_le_pos; [specialize (P i); lra|exact Hw]|]. intros j Hj. apply (Hle j ((1 + mu) ^ j * w)); [apply IH; lia|].
        apply Rmult_le_compat_r; [exact Hw|apply Q; lia].
      + simpl. assert (w <= (1 + mu) ^ i * w) by (specialize (P i); nra). nra. }
  intros i Hi. apply (Hle i _ _ (A i Hi)). apply Rmult_le_compat_r; [exact Hw|apply Q; lia].
Qed.

Lemma Rsum_weighted s (w x : nat -> R) D : (forall j, (j < s)%nat -> w j <> 0 -> Rabs (x j) <= D) -> Rabs (Rsum s (fun j => w j * x j)) <= Rsum s (fun j => Rabs (w j)) * D.
Proof.
  intros H. eapply Rle_trans; [apply Rsum_abs|]. rewrite Rmult_comm, <- Rsum_scal. apply Rsum_le. intros j Hj. rewrite Rabs_mult.
  destruct (Req_dec (w j) 0) as [->|Hne]; [rewrite Rabs_R0; lra|]. rewrite (Rmult_comm D). apply Rmult_le_compat_l; [apply Rabs_pos|apply H; assumption].
Qed.

Section Step.
  Variables (n s : nat) (a : nat -> nat -> R) (b c : nat -> R) (f : R -> list R -> list R) (L t0 t1 : R).
  Definition rows : R := Rsum s (fun i => Rsum s (fun j => Rabs (a i j))).
  Definition cols : R := Rsum s (fun j => Rabs (b j)).
  Hypothesis Ha : forall i j, (i <= j)%nat -> (j < s)%nat -> a i j = 0.
  Hypothesis Hc : forall i, (i < s)%nat -> 0 <= c i <= 1.
  Hypothesis HL : 0 <= L.
  Hypothesis Hf : lipschitz_in n L t0 t1 f.

  Lemma rows_pos : 0 <= rows.
  Proof. apply Rsum_nonneg. intros. apply Rsum_nonneg. intros. apply Rabs_pos. Qed.
  Lemma cols_pos : 0 <= cols.
  Proof. apply Rsum_nonneg. intros. apply Rabs_pos. Qed.
  Lemma row_le i : (i < s)%nat -> Rsum s (fun j => Rabs (a i j)) <= rows.
  Proof.
    intros Hi. set (g := fun k => if (k =? i)%nat then Rsum s (fun j => Rabs (a i j)) else 0).
    assert (E : Rsum s g = Rsum s (fun j => Rabs (a i j))).
    { rewrite (Rsum_single s i g Hi); [unfold g; rewrite Nat.eqb_refl; reflexivity|]. intros k _ Hk. unfold g. destruct (Nat.eqb_spec k i); [contradiction|reflexivity]. }
    rewrite <- E. unfold rows, g. apply Rsum_le. intros k Hk. destruct (Nat.eqb_spec k i) as [->|]; [lra|]. apply Rsum_nonneg. intros. apply Rabs_pos.
  Qed.

  (** a step beside a reference: z and z' with stages Z and slopes kap, all consistent with f up to de *)
  Lemma near_step t h y y' K z z' (Z : nat -> list R) (kap : nat -> nat -> R) e de :
    rk_step n s a b c f t h y y' K -> t0 <= t -> 0 <= h -> t + h <= t1 -> 0 <= e -> 0 <= de ->
    (forall i, (i < s)%nat -> length (Z i) = n) ->
    (forall i q, (i < s)%nat -> (q < n)%nat -> Rabs (ventry (Z i) q - ventry z q - h * Rsum s (fun j => a i j * kap j q)) <= h * de) ->
    (forall j q, (j < s)%nat -> (q < n)%nat -> Rabs (ventry (f (t + c j * h) (Z j)) q - kap j q) <= de) ->
    (forall q, (q < n)%nat -> Rabs (ventry z' q - ventry z q - h * Rsum s (fun j => b j * kap j q)) <= h * de) ->
    near n e y z ->
    near n (e + h * (cols * (L * ((1 + h * rows * L) ^ s * (e + h * (rows + 1) * de)) + de) + de)) y' z'.
  Proof.
    intros (LK & HK & Hy') Ht Hh Hth He Hde LZ HZ Hkap Hz' Hn.
    pose proof rows_pos as HA. pose proof cols_pos as HB.
    set (Y := fun i => vtab n (fun q => ventry y q + h * Rsum s (fun j => a i j * ventry (nth j K []) q))).
    assert (Hw : 0 <= e + h * (rows + 1) * de) by (apply Rplus_le_le_0_compat; [exact He|apply Rmult_le_pos; [apply Rmult_le_pos; lra|exact Hde]]).
    assert (Hmu : 0 <= h * rows * L) by (apply Rmult_le_pos; [apply Rmult_le_pos; assumption|exact HL]).
    assert (Slope : forall j d, (j < s)%nat -> near n d (Y j) (Z j) -> forall q, (q < n)%nat -> Rabs (ventry (nth j K []) q - kap j q) <= L * d + de).
    { intros j d Hj Hd q Hq. rewrite (proj2 (HK j Hj)). fold (Y j).
      assert (Htj : t0 <= t + c j * h <= t1) by (destruct (Hc j Hj); nra).
      pose proof (Hf (t + c j * h) (Y j) (Z j) d Htj (vtab_length _ _) (LZ j Hj) Hd q Hq) as H1. pose proof (Hkap j q Hj Hq) as H2.
      replace (ventry (f (t + c j * h) (Y j)) q - kap j q) with ((ventry (f (t + c j * h) (Y j)) q - ventry (f (t + c j * h) (Z j)) q) + (ventry (f (t + c j * h) (Z j)) q - kap j q)) by ring.
      eapply Rle_trans; [apply Rabs_triang|]. lra. }
    assert (Stage : forall i, (i < s)%nat -> near n ((1 + h * rows * L) ^ s * (e + h * (rows + 1) * de)) (Y i) (Z i)).
    { apply (geometric s (fun i d => near n d (Y i) (Z i))); [exact Hw|exact Hmu|intros i d d' H Hle q Hq; specialize (H q Hq); lra|].
      intros i d Hi Hd IH q Hq. unfold Y, ventry at 1. rewrite vtab_nth by exact Hq. pose proof (HZ i q Hi Hq) as H1. pose proof (Hn q Hq) as H2.
      assert (H3 : Rabs (Rsum s (fun j => a i j * (ventry (nth j K []) q - kap j q))) <= rows * (L * d + de)).
      { eapply Rle_trans; [apply (Rsum_weighted s (fun j => a i j) (fun j => ventry (nth j K []) q - kap j q) (L * d + de))|].
        - intros j Hj Hne. apply Slope; [exact Hj| |exact Hq]. apply IH. destruct (le_lt_dec i j) as [H|H]; [|exact H]. exfalso. apply Hne, Ha; assumption.
        - apply Rmult_le_compat_r; [pose proof (Rmult_le_pos _ _ HL Hd); lra|apply row_le; exact Hi]. }
      assert (E : Rsum s (fun j => a i j * (ventry (nth j K []) q - kap j q)) = Rsum s (fun j => a i j * ventry (nth j K []) q) - Rsum s (fun j => a i j * kap j q)).
      { assert (Q : Rsum s (fun j => a i j * ventry (nth j K []) q) = Rsum s (fun j => a i j * (ventry (nth j K []) q - kap j q)) + Rsum s (fun j => a i j * kap j q)) by (rewrite <- Rsum_plus; apply Rsum_ext; intros; ring). lra. }
      rewrite E in H3. set (S1 := Rsum s (fun j => a i j * ventry (nth j K []) q)) in * . set (S2 := Rsum s (fun j => a i j * kap j q)) in * .
      replace (ventry y q + h * S1 - ventry (Z i) q) with ((ventry y q - ventry z q) + (h * (S1 - S2) - (ventry (Z i) q - ventry z q - h * S2))) by ring.
      eapply Rle_trans; [apply Rabs_triang|]. assert (H4 : Rabs (h * (S1 - S2)) <= h * (rows * (L * d + de))) by (rewrite Rabs_mult, (Rabs_pos_eq h) by exact Hh; apply Rmult_le_compat_l; assumption).
      pose proof (Rabs_triang (h * (S1 - S2)) (- (ventry (Z i) q - ventry z q - h * S2))) as H5. rewrite Rabs_Ropp in H5. unfold Rminus at 2. nra. }
    intros q Hq. rewrite Hy'. unfold ventry at 1. rewrite vtab_nth by exact Hq. pose proof (Hz' q Hq) as H1. pose proof (Hn q Hq) as H2.
    set (D := (1 + h * rows * L) ^ s * (e + h * (rows + 1) * de)) in * .
    assert (H3 : Rabs (Rsum s (fun j => b j * (ventry (nth j K []) q - kap j q))) <= cols * (L * D + de)).
    { apply (Rsum_weighted s b (fun j => ventry (nth j K []) q - kap j q) (L * D + de)). intros j Hj _. apply Slope; [exact Hj|apply Stage; exact Hj|exact Hq]. }
    assert (E : Rsum s (fun j => b j * (ventry (nth j K []) q - kap j q)) = Rsum s (fun j => b j * ventry (nth j K []) q) - Rsum s (fun j => b j * kap j q)).
    { assert (Q : Rsum s (fun j => b j * ventry (nth j K []) q) = Rsum s (fun j => b j * (ventry (nth j K []) q - kap j q)) + Rsum s (fun j => b j * kap j q)) by (rewrite <- Rsum_plus; apply Rsum_ext; intros; ring). lra. }
    rewrite E in H3. set (S1 := Rsum s (fun j => b j * ventry (nth j K []) q)) in * . set (S2 := Rsum s (fun j => b j * kap j q)) in * .
    replace (ventry y q + h * S1 - ventry z' q) with ((ventry y q - ventry z q) + (h * (S1 - S2) + - (ventry z' q - ventry z q - h * S2))) by ring.
    eapply Rle_trans; [apply Rabs_triang|]. assert (H4 : Rabs (h * (S1 - S2)) <= h * (cols * (L * D + de))) by (rewrite Rabs_mult, (Rabs_pos_eq h) by exact Hh; apply Rmult_le_compat_l; assumption).
    pose proof (Rabs_triang (h * (S1 - S2)) (- (ventry z' q - ventry z q - h * S2))) as H5. rewrite Rabs_Ropp in H5. lra.
  Qed.

  (** constants for steps within an interval of length t1 - t0 *)
  Definition rate : R := cols * L * (1 + (t1 - t0) * rows * L) ^ s.
  Definition gain : R := rate * ((t1 - t0) * (rows + 1)) + cols + 1.
  Hypothesis H01 : t0 <= t1.
  Lemma lambda_pos : 1 <= (1 + (t1 - t0) * rows * L) ^ s.
  Proof. apply pow_R1_Rle. pose proof rows_pos. assert (0 <= (t1 - t0) * rows * L) by (apply Rmult_le_pos; [apply Rmult_le_pos; lra|exact HL]). lra. Qed.
  Lemma rate_pos : 0 <= rate.
  Proof. unfold rate. pose proof lambda_pos. apply Rmult_le_pos; [apply Rmult_le_pos; [apply cols_pos|exact HL]|lra]. Qed.
  Lemma gain_pos : 0 <= gain.
  Proof. unfold gain. pose proof rate_pos. pose proof cols_pos. pose proof rows_pos. assert (0 <= rate * ((t1 - t0) * (rows + 1))) by (apply Rmult_le_pos; [assumption|apply Rmult_le_pos; lra]). lra. Qed.
  Lemma step_rate h e de : 0 <= h <= t1 - t0 -> 0 <= e -> 0 <= de ->
    e + h * (cols * (L * ((1 + h * rows * L) ^ s * (e + h * (rows + 1) * de)) + de) + de) <= (1 + h * rate) * e + h * (gain * de).
  Proof.
    intros Hh He Hde. pose proof rows_pos as HA. pose proof cols_pos as HB. pose proof lambda_pos as HLa.
    assert (Hp : (1 + h * rows * L) ^ s <= (1 + (t1 - t0) * rows * L) ^ s).
    { apply pow_incr. assert (0 <= h * rows * L) by (apply Rmult_le_pos; [apply Rmult_le_pos; lra|exact HL]).
      assert (h * (rows * L) <= (t1 - t0) * (rows * L)) by (apply Rmult_le_compat_r; [apply Rmult_le_pos; assumption|lra]). lra. }
    set (lam := (1 + (t1 - t0) * rows * L) ^ s) in * . set (lh := (1 + h * rows * L) ^ s) in * .
    assert (H1 : h * (rows + 1) * de <= (t1 - t0) * (rows + 1) * de) by (apply Rmult_le_compat_r; [exact Hde|apply Rmult_le_compat_r; lra]).
    assert (H0 : 0 <= h * (rows + 1) * de) by (apply Rmult_le_pos; [apply Rmult_le_pos; lra|exact Hde]).
    assert (H2 : lh * (e + h * (rows + 1) * de) <= lam * (e + (t1 - t0) * (rows + 1) * de)).
    { apply Rle_trans with (lam * (e + h * (rows + 1) * de)); [apply Rmult_le_compat_r; lra|apply Rmult_le_compat_l; lra]. }
    assert (H3 : cols * L * (lh * (e + h * (rows + 1) * de)) <= cols * L * (lam * (e + (t1 - t0) * (rows + 1) * de))) by (apply Rmult_le_compat_l; [apply Rmult_le_pos; assumption|exact H2]).
    unfold gain, rate. fold lam.
    apply Rle_trans with (e + h * (cols * L * (lam * (e + (t1 - t0) * (rows + 1) * de)) + cols * de + de)).
    - apply Rplus_le_compat_l, Rmult_le_compat_l; [lra|]. lra.
    - right. ring.
  Qed.

  (** all steps *)
  Lemma near_steps (ts : list R) (ys zs : list (list R)) e de : 0 <= e -> 0 <= de ->
    (forall k, (k < length ts)%nat -> t0 <= nth k ts 0 <= t1) -> nth 0 ts 0 = t0 ->
    (forall k, (S k < length ts)%nat -> 0 <= nth (S k) ts 0 - nth k ts 0) ->
    near n e (nth 0 ys []) (nth 0 zs []) ->
    (forall k, (S k < length ts)%nat -> let t := nth k ts 0 in let h := nth (S k) ts 0 - t in
      (exists K, rk_step n s a b c f t h (nth k ys []) (nth (S k) ys []) K) /\
      exists (Z : nat -> list R) (kap : nat -> nat -> R),
        (forall i, (i < s)%nat -> length (Z i) = n) /\
        (forall i q, (i < s)%nat -> (q < n)%nat -> Rabs (ventry (Z i) q - ventry (nth k zs []) q - h * Rsum s (fun j => a i j * kap j q)) <= h * de) /\
        (forall j q, (j < s)%nat -> (q < n)%nat -> Rabs (ventry (f (t + c j * h) (Z j)) q - kap j q) <= de) /\
        (forall q, (q < n)%nat -> Rabs (ventry (nth (S k) zs []) q - ventry (nth k zs []) q - h * Rsum s (fun j => b j * kap j q)) <= h * de)) ->
    forall k, (k < length ts)%nat -> near n (exp (rate * (t1 - t0)) * (1 + gain * (t1 - t0)) * (e + de)) (nth k ys []) (nth k zs []).
  Proof.
    intros He Hde Hin Hst Hmono H0 Hstep. pose proof rate_pos as HR. pose proof gain_pos as HG.
    assert (B : forall k, (k < length ts)%nat -> near n (exp (rate * (nth k ts 0 - t0)) * (e + gain * de * (nth k ts 0 - t0))) (nth k ys []) (nth k zs [])).
    { induction k as [|k IH]; intros Hk.
      - rewrite Hst. replace (rate * (t0 - t0)) with 0 by ring. rewrite exp_0. intros q Hq. specialize (H0 q Hq). lra.
      - specialize (IH ltac:(lia)). destruct (Hstep k Hk) as ((K & HK) & Z & kap & Z1 & Z2 & Z3 & Z4). set (t := nth k ts 0) in * . set (h := nth (S k) ts 0 - t) in * .
        pose proof (Hin k ltac:(lia)) as Ht. fold t in Ht. pose proof (Hin (S k) Hk) as Ht'. pose proof (Hmono k Hk) as Hh. fold t h in Hh.
        assert (Et : nth (S k) ts 0 = t + h) by (unfold h; ring). rewrite Et in * .
        assert (Hgd : 0 <= gain * de * (t - t0)) by (apply Rmult_le_pos; [apply Rmult_le_pos; assumption|lra]).
        set (Ek := exp (rate * (t - t0)) * (e + gain * de * (t - t0))) in * .
        assert (HEk : 0 <= Ek) by (apply Rmult_le_pos; [left; apply exp_pos|lra]).
        pose proof (near_step t h _ _ K (nth k zs []) (nth (S k) zs []) Z kap Ek de HK (proj1 Ht) Hh ltac:(lra) HEk Hde Z1 Z2 Z3 Z4 IH) as N.
        intros q Hq. eapply Rle_trans; [apply (N q Hq)|]. eapply Rle_trans; [apply step_rate; [lra|exact HEk|exact Hde]|].
        replace (t + h - t0) with (t - t0 + h) by ring. rewrite (Rmult_plus_distr_l rate), exp_plus.
        assert (X1 : 1 + h * rate <= exp (rate * h)) by (pose proof (exp_ineq1_le (rate * h)); lra).
        assert (X2 : 1 <= exp (rate * (t - t0)) * exp (rate * h)).
        { rewrite <- exp_plus. rewrite <- exp_0 at 1. apply exp_mono. pose proof (Rmult_le_pos _ _ HR Hh). assert (0 <= rate * (t - t0)) by (apply Rmult_le_pos; lra). lra. }
        assert (X3 : (1 + h * rate) * Ek <= exp (rate * h) * Ek) by (apply Rmult_le_compat_r; assumption).
        assert (X4 : 0 <= h * (gain * de)) by (apply Rmult_le_pos; [exact Hh|apply Rmult_le_pos; assumption]).
        assert (X5 : 1 * (h * (gain * de)) <= exp (rate * (t - t0)) * exp (rate * h) * (h * (gain * de))) by (apply Rmult_le_compat_r; assumption).
        unfold Ek in X3 at 2. unfold Ek. fold Ek. nra. }
    intros k Hk q Hq. eapply Rle_trans; [apply (B k Hk q Hq)|]. pose proof (Hin k Hk) as Ht. set (t := nth k ts 0) in * .
    assert (Y1 : exp (rate * (t - t0)) <= exp (rate * (t1 - t0))) by (apply exp_mono, Rmult_le_compat_l; lra).
    assert (Y2 : gain * de * (t - t0) <= gain * de * (t1 - t0)) by (apply Rmult_le_compat_l; [apply Rmult_le_pos; assumption|lra]).
    assert (Y3 : 0 <= gain * de * (t - t0)) by (apply Rmult_le_pos; [apply Rmult_le_pos; assumption|lra]).
    assert (Y4 : 0 <= gain * (t1 - t0) * e) by (apply Rmult_le_pos; [apply Rmult_le_pos; lra|exact He]).
    pose proof (exp_pos (rate * (t - t0))). pose proof (exp_pos (rate * (t1 - t0))).
    apply Rle_trans with (exp (rate * (t1 - t0)) * (e + gain * de * (t - t0))); [apply Rmult_le_compat_r; lra|]. rewrite (Rmult_assoc (exp (rate * (t1 - t0)))). apply Rmult_le_compat_l; [lra|]. nra.
  Qed.
End Step.

(** ** runs *)
Lemma run_facts {E : Env R} {LA : LinAlg R} {X : ExactProducts LA} {St} (F : functor R St) f : computes F f ->
  forall m sc fuel t0 t1 y0 o oo dt w w' r, In m explicit_methods -> erk_get_coefficients m = Ok sc -> (ndebug = false \/ (t0 < t1 /\ 0 < dt)) ->
  erk_odeint fuel F t0 t1 y0 o oo m dt w = (w', Ok r) ->
  (forall k, (k < length (eo_t_vals r))%nat -> t0 <= nth k (eo_t_vals r) 0 <= t1) /\ nth 0 (eo_t_vals r) 0 = t0 /\ nth 0 (eo_y_vals r) [] = y0 /\
  (forall k, (S k < length (eo_t_vals r))%nat -> 0 <= nth (S k) (eo_t_vals r) 0 - nth k (eo_t_vals r) 0) /\
  forall k, (S k < length (eo_t_vals r))%nat -> exists K, rk_step (length y0) (length (sc_b sc)) (mfun (sc_A sc)) (vfun (sc_b sc)) (vfun (sc_c sc)) f
    (nth k (eo_t_vals r) 0) (nth (S k) (eo_t_vals r) 0 - nth k (eo_t_vals r) 0) (nth k (eo_y_vals r) []) (nth (S k) (eo_y_vals r) []) K.
Proof.
  intros HF m sc fuel t0 t1 y0 o oo dt w w' r Hm Hg Hpos Hrun.
  destruct (erk_is_rk F f HF _ _ _ _ _ _ _ _ _ _ _ Hrun) as (sc' & Hg' & Hs). rewrite Hg in Hg'. injection Hg' as <-.
  destruct (y_first F _ _ _ _ _ _ _ _ _ _ _ Hrun) as [Hy Ht]. destruct (erk_times F _ _ _ _ _ _ _ _ _ _ _ Hpos Hrun) as (T1 & T2 & _). rewrite Forall_forall in T2.
  split; [intros k Hk; apply T2, nth_In, Hk|]. split; [exact Ht|]. split; [exact Hy|]. split.
  - intros k Hk. pose proof (sorted_nth _ T1 k Hk). lra.
  - intros k Hk. destruct (Hs k Hk) as (K & _ & HK). exists K. exact HK.
Qed.
Lemma tab_facts m sc : In m explicit_methods -> erk_get_coefficients m = Ok sc ->
  (forall i j, (i <= j)%nat -> (j < length (sc_b sc))%nat -> mfun (sc_A sc) i j = 0) /\ (forall i, (i < length (sc_b sc))%nat -> 0 <= vfun (sc_c sc) i <= 1) /\
  (forall i, (i < length (sc_b sc))%nat -> Rsum (length (sc_b sc)) (fun j => mfun (sc_A sc) i j) = vfun (sc_c sc) i) /\ Rsum (length (sc_b sc)) (vfun (sc_b sc)) = 1.
Proof.
  intros Hm Hg. destruct (sc_facts m sc Hm Hg) as (_ & Hd & Hlow & Hrow & Hb). split; [exact Hlow|]. split; [|split; assumption].
  destruct (TablesGeneric.erk_get_ok (T := R) m) as (sc' & Hg' & Ht & _). rewrite Hg in Hg'. injection Hg' as <-. pose proof (erk_nodes m sc Ht) as Hc. rewrite Forall_forall in Hc.
  intros i Hi. unfold vfun. destruct (nth_in_or_default i (sc_c sc) 0) as [H|H]; [apply Hc, H|]. change (0 <= ventry (sc_c sc) i <= 1). unfold ventry. rewrite H. lra.
Qed.

Theorem erk_dependence m L T : In m explicit_methods -> 0 <= L -> 0 < T -> exists C, 0 <= C /\
  forall n f g t0 t1 e de, t1 - t0 = T -> lipschitz_in n L t0 t1 f ->
  (forall t y q, t0 <= t <= t1 -> length y = n -> (q < n)%nat -> Rabs (ventry (f t y) q - ventry (g t y) q) <= de) ->
  forall (E1 E2 : Env R) (L1 L2 : LinAlg R) (X1 : ExactProducts L1) (X2 : ExactProducts L2) (S1 S2 : Type) (F : functor R S1) (G : functor R S2),
  computes F f -> computes G g ->
  forall fu1 y o1 oo1 d1 w1 w1' r1 fu2 z o2 oo2 d2 w2 w2' r2, 0 < d1 -> 0 < d2 -> length y = n -> length z = n ->
  @erk_odeint R RScalar L1 E1 S1 fu1 F t0 t1 y o1 oo1 m d1 w1 = (w1', Ok r1) ->
  @erk_odeint R RScalar L2 E2 S2 fu2 G t0 t1 z o2 oo2 m d2 w2 = (w2', Ok r2) ->
  (forall q, (q < n)%nat -> Rabs (ventry y q - ventry z q) <= e) -> eo_t_vals r2 = eo_t_vals r1 ->
  forall k q, (k < length (eo_t_vals r1))%nat -> (q < n)%nat ->
  Rabs (ventry (nth k (eo_y_vals r1) []) q - ventry (nth k (eo_y_vals r2) []) q) <= C * (e + de).
Proof.
  intros Hm HL HT. destruct (TablesGeneric.erk_get_ok (T := R) m) as (sc & Hg & _ & _). destruct (tab_facts m sc Hm Hg) as (Hlow & Hc & _ & _).
  set (s := length (sc_b sc)) in * .
  set (rt := rate s (mfun (sc_A sc)) (vfun (sc_b sc)) L 0 T). set (gn := gain s (mfun (sc_A sc)) (vfun (sc_b sc)) L 0 T).
  exists (exp (rt * T) * (1 + gn * T)).
  assert (Hgn : 0 <= gn) by (apply gain_pos; lra).
  split. { apply Rmult_le_pos; [left; apply exp_pos|]. assert (0 <= gn * T) by (apply Rmult_le_pos; lra). lra. }
  intros n f g t0 t1 e de HT1 Hf Hfg E1 E2 L1 L2 X1 X2 S1 S2 F G HF HG fu1 y o1 oo1 d1 w1 w1' r1 fu2 z o2 oo2 d2 w2 w2' r2 Hd1 Hd2 Ly Lz R1 R2 He HTs k q Hk Hq.
  assert (H01 : t0 < t1) by lra.
  destruct (run_facts F f HF m sc _ _ _ _ _ _ _ _ _ _ Hm Hg (or_intror (conj H01 Hd1)) R1) as (A1 & A2 & A3 & A4 & A5).
  destruct (run_facts G g HG m sc _ _ _ _ _ _ _ _ _ _ Hm Hg (or_intror (conj H01 Hd2)) R2) as (_ & _ & B3 & _ & B5).
  assert (He0 : 0 <= e) by (eapply Rle_trans; [apply Rabs_pos|apply (He q Hq)]).
  assert (Hde0 : 0 <= de) by (eapply Rle_trans; [apply Rabs_pos|apply (Hfg t0 y q ltac:(lra) Ly Hq)]).
  rewrite HTs, Lz in B5. rewrite Ly in A5.
  pose proof (near_steps n s (mfun (sc_A sc)) (vfun (sc_b sc)) (vfun (sc_c sc)) f L t0 t1 Hlow Hc HL Hf ltac:(lra) (eo_t_vals r1) (eo_y_vals r1) (eo_y_vals r2) e de He0 Hde0 A1 A2 A4) as N.
  assert (Er : rate s (mfun (sc_A sc)) (vfun (sc_b sc)) L t0 t1 = rt) by (unfold rt, rate; rewrite HT1, Rminus_0_r; reflexivity).
  assert (Eg : gain s (mfun (sc_A sc)) (vfun (sc_b sc)) L t0 t1 = gn) by (unfold gn, gain; rewrite Er, HT1, Rminus_0_r; reflexivity).
  rewrite Er, Eg, HT1 in N. apply N; [rewrite A3, B3; exact He| |exact Hk|exact Hq]. clear N.
  intros i Hi. cbv zeta. split; [apply A5, Hi|]. destruct (B5 i Hi) as (K2 & LK & HK & Hy').
  set (t := nth i (eo_t_vals r1) 0) in * . set (h := nth (S i) (eo_t_vals r1) 0 - t) in * . pose proof (A4 i Hi) as Hh. fold t h in Hh.
  pose proof (A1 i ltac:(lia)) as Ht. pose proof (A1 (S i) Hi) as Ht'. fold t in Ht.
  exists (fun i0 => vtab n (fun q => ventry (nth i (eo_y_vals r2) []) q + h * Rsum s (fun j => mfun (sc_A sc) i0 j * ventry (nth j K2 []) q))), (fun j q => ventry (nth j K2 []) q).
  split; [intros; apply vtab_length|]. split; [|split].
  - intros i0 p Hi0 Hp. unfold ventry at 1. rewrite vtab_nth by exact Hp. replace (_ - _ - _) with 0 by ring. rewrite Rabs_R0. apply Rmult_le_pos; assumption.
  - intros j p Hj Hp. rewrite (proj2 (HK j Hj)). apply Hfg; [|apply vtab_length|exact Hp]. destruct (Hc j Hj). unfold h in * . nra.
  - intros p Hp. rewrite Hy'. unfold ventry at 1. rewrite vtab_nth by exact Hp. fold s. replace (_ - _ - _) with 0 by ring. rewrite Rabs_R0. apply Rmult_le_pos; assumption.
Qed.

Lemma grid_unique N M dt len : 0 < dt -> (1 <= N)%nat -> (1 <= M)%nat -> INR (N - 1) * dt < len <= INR N * dt -> INR (M - 1) * dt < len <= INR M * dt -> N = M.
Proof.
  intros Hdt HN HM [A1 A2] [B1 B2].
  assert (X : INR (N - 1) < INR M) by (apply (Rmult_lt_reg_r dt); [exact Hdt|lra]). assert (Y : INR (M - 1) < INR N) by (apply (Rmult_lt_reg_r dt); [exact Hdt|lra]).
  apply INR_lt in X, Y. lia.
Qed.
Lemma same_fixed_times {E1 E2 : Env R} {L1 L2 : LinAlg R} {S1 S2} (F : functor R S1) (G : functor R S2) m t0 t1 dt fu1 y o1 oo1 w1 w1' r1 fu2 z o2 oo2 w2 w2' r2 :
  In m explicit_methods -> t0 < t1 -> 0 < dt -> (eo_adaptive o1 = false /\ eo_adaptive o2 = false) \/ ~ In m explicit_embedded ->
  @erk_odeint R RScalar L1 E1 S1 fu1 F t0 t1 y o1 oo1 m dt w1 = (w1', Ok r1) -> eo_status r1 = SUCCESS ->
  @erk_odeint R RScalar L2 E2 S2 fu2 G t0 t1 z o2 oo2 m dt w2 = (w2', Ok r2) -> eo_status r2 = SUCCESS ->
  eo_t_vals r2 = eo_t_vals r1.
Proof.
  intros Hm Ht Hdt Hfix R1 Q1 R2 Q2.
  destruct (@erk_fixed_grid E1 L1 S1 F t0 t1 y o1 oo1 m dt Hm Ht Hdt ltac:(tauto) _ _ _ _ R1) as (_ & Ga). destruct (Ga Q1) as (N & P1 & P2 & P3).
  destruct (@erk_fixed_grid E2 L2 S2 G t0 t1 z o2 oo2 m dt Hm Ht Hdt ltac:(tauto) _ _ _ _ R2) as (_ & Gb). destruct (Gb Q2) as (M & O1 & O2 & O3).
  rewrite P3, O3, (grid_unique N M dt (t1 - t0) Hdt P1 O1 P2 O2). reflexivity.
Qed.

Theorem erk_lipschitz_converges m n f phi t0 t1 L K M : In m explicit_methods -> t0 < t1 -> 0 <= L -> solves n f t0 t1 phi -> lipschitz_in n L t0 t1 f -> slopes_steady n K M t0 t1 f phi ->
  exists C, 0 <= C /\
  forall (E : Env R) (LA : LinAlg R) (X : ExactProducts LA) (St : Type) (F : functor R St), computes F f ->
  forall fuel o oo dt w w' sol H, 0 < dt -> erk_odeint fuel F t0 t1 (phi t0) o oo m dt w = (w', Ok sol) ->
  steps_at_most H (eo_t_vals sol) -> 0 <= H ->
  forall k q, (k < length (eo_t_vals sol))%nat -> (q < n)%nat ->
  Rabs (ventry (nth k (eo_y_vals sol) []) q - ventry (phi (nth k (eo_t_vals sol) 0)) q) <= C * H.
Proof.
  intros Hm Ht01 HL Hs Hf Hst. destruct (TablesGeneric.erk_get_ok (T := R) m) as (sc & Hg & _ & _). destruct (tab_facts m sc Hm Hg) as (Hlow & Hc & Hrow & Hb).
  set (s := length (sc_b sc)) in * .
  set (rt := rate s (mfun (sc_A sc)) (vfun (sc_b sc)) L t0 t1). set (gn := gain s (mfun (sc_A sc)) (vfun (sc_b sc)) L t0 t1).
  assert (Hgn : 0 <= gn) by (apply gain_pos; lra).
  assert (HD : 0 <= exp (rt * (t1 - t0)) * (1 + gn * (t1 - t0))) by (apply Rmult_le_pos; [left; apply exp_pos|]; assert (0 <= gn * (t1 - t0)) by (apply Rmult_le_pos; lra); lra).
  exists (exp (rt * (t1 - t0)) * (1 + gn * (t1 - t0)) * Rmax M 0). split; [apply Rmult_le_pos; [exact HD|apply Rmax_r]|].
  intros E LA X St F HF fuel o oo dt w w' sol H Hdt Hrun HH H0 k q Hk Hq.
  destruct (run_facts F f HF m sc _ _ _ _ _ _ _ _ _ _ Hm Hg (or_intror (conj Ht01 Hdt)) Hrun) as (A1 & A2 & A3 & A4 & A5).
  rewrite (proj1 Hs) in A5. pose proof (Rmax_l M 0) as HM. pose proof (Rmax_r M 0) as HM0. set (M' := Rmax M 0) in * .
  assert (HMH : 0 <= M' * H) by (apply Rmult_le_pos; assumption).
  pose proof (near_steps n s (mfun (sc_A sc)) (vfun (sc_b sc)) (vfun (sc_c sc)) f L t0 t1 Hlow Hc HL Hf ltac:(lra) (eo_t_vals sol) (eo_y_vals sol) (map phi (eo_t_vals sol)) 0 (M' * H) (Rle_refl 0) HMH A1 A2 A4) as N.
  fold rt gn in N.
  assert (Nz : forall i, (i < length (eo_t_vals sol))%nat -> nth i (map phi (eo_t_vals sol)) [] = phi (nth i (eo_t_vals sol) 0)).
  { intros i Hi. rewrite (nth_indep _ [] (phi 0)) by (rewrite map_length; exact Hi). apply map_nth. }
  rewrite <- (Nz k Hk), Rmult_assoc. replace (M' * H) with (0 + M' * H) by ring. apply N; [| |exact Hk|exact Hq].
  - rewrite A3, Nz, A2 by lia. intros p Hp. replace (_ - _) with 0 by ring. rewrite Rabs_R0. lra.
  - clear N. intros i Hi. cbv zeta. split; [apply A5, Hi|]. rewrite !Nz by lia.
    pose proof (A4 i Hi) as Hh. pose proof (A1 i ltac:(lia)) as Ht. pose proof (A1 (S i) Hi) as Ht'. pose proof (HH i Hi) as HhH.
    set (t := nth i (eo_t_vals sol) 0) in * . set (t' := nth (S i) (eo_t_vals sol) 0) in * . set (h := t' - t) in * .
    assert (Tay : forall u p, 0 <= u <= h -> (p < n)%nat -> Rabs (ventry (phi (t + u)) p - ventry (phi t) p - u * ventry (f t (phi t)) p) <= h * (M' * H)).
    { intros u p Hu Hp. pose proof (phi_taylor n f phi t0 t1 K M Hs Hst t (t + u) t p (proj1 Ht) ltac:(lra) ltac:(unfold h in Hu; lra) (or_introl eq_refl) Hp) as Y.
      replace (t + u - t) with u in Y by ring. eapply Rle_trans; [exact Y|]. assert (M * u <= M' * u) by (apply Rmult_le_compat_r; lra).
      assert (M' * u <= M' * H) by (apply Rmult_le_compat_l; lra). apply Rle_trans with (M' * H * u); [apply Rmult_le_compat_r; lra|]. rewrite (Rmult_comm h). apply Rmult_le_compat_l; lra. }
    exists (fun j => phi (t + vfun (sc_c sc) j * h)), (fun _ p => ventry (f t (phi t)) p).
    split; [intros; apply Hs|]. split; [|split].
    + intros j p Hj Hp. destruct (Hc j Hj) as [C1 C2].
      assert (Es : Rsum s (fun l => mfun (sc_A sc) j l * ventry (f t (phi t)) p) = vfun (sc_c sc) j * ventry (f t (phi t)) p).
      { rewrite <- (Hrow j Hj), (Rmult_comm (Rsum _ _)), <- Rsum_scal. apply Rsum_ext. intros; ring. }
      rewrite Es, <- Rmult_assoc, (Rmult_comm h). apply Tay; [|exact Hp]. split; [apply Rmult_le_pos; assumption|]. rewrite <- (Rmult_1_l h) at 2. apply Rmult_le_compat_r; assumption.
    + intros j p Hj Hp. destruct (Hc j Hj) as [C1 C2].
      assert (Hu : 0 <= vfun (sc_c sc) j * h <= h) by (split; [apply Rmult_le_pos; assumption|rewrite <- (Rmult_1_l h) at 2; apply Rmult_le_compat_r; assumption]).
      pose proof (proj2 (Hst t (t + vfun (sc_c sc) j * h) p ltac:(lra) ltac:(unfold h in *; lra) Hp)) as Y.
      replace (t + vfun (sc_c sc) j * h - t) with (vfun (sc_c sc) j * h) in Y by ring. rewrite (Rabs_pos_eq (vfun (sc_c sc) j * h)) in Y by lra.
      eapply Rle_trans; [exact Y|]. apply Rle_trans with (M' * (vfun (sc_c sc) j * h)); [apply Rmult_le_compat_r; lra|apply Rmult_le_compat_l; lra].
    + intros p Hp. assert (Es : Rsum s (fun l => vfun (sc_b sc) l * ventry (f t (phi t)) p) = ventry (f t (phi t)) p).
      { transitivity (ventry (f t (phi t)) p * Rsum s (vfun (sc_b sc))); [|rewrite Hb; ring]. rewrite <- Rsum_scal. apply Rsum_ext. intros; ring. }
      rewrite Es. pose proof (Tay h p ltac:(lra) Hp) as Y. replace (t + h) with t' in Y by (unfold h; ring). exact Y.
Qed.

(** fixed steps: the run succeeds and ends within C dt *)
Theorem erk_lipschitz_fixed m n f phi t0 t1 L K M : In m explicit_methods -> t0 < t1 -> 0 <= L -> solves n f t0 t1 phi -> lipschitz_in n L t0 t1 f -> slopes_steady n K M t0 t1 f phi ->
  preserves_dim f n -> exists C, 0 <= C /\
  forall (E : Env R) (LA : LinAlg R) (X : ExactProducts LA) (St : Type) (F : functor R St), total_fun F f ->
  forall o oo dt, (write_to_file oo = true -> output_stream oo <> None) -> eo_adaptive o = false \/ ~ In m explicit_embedded -> (eo_max_steps o < 0)%Z -> 0 < dt ->
  forall w, exists w' sol, (exists fuel0, forall fuel, (fuel0 <= fuel)%nat -> erk_odeint fuel F t0 t1 (phi t0) o oo m dt w = (w', Ok sol)) /\
  eo_status sol = SUCCESS /\ last (eo_t_vals sol) t0 = t1 /\
  (forall k q, (k < length (eo_t_vals sol))%nat -> (q < n)%nat ->
    Rabs (ventry (nth k (eo_y_vals sol) []) q - ventry (phi (nth k (eo_t_vals sol) 0)) q) <= C * dt) /\
  forall q, (q < n)%nat -> Rabs (ventry (last (eo_y_vals sol) []) q - ventry (phi t1) q) <= C * dt.
Proof.
  intros Hm Ht HL Hs Hf Hst Hd. destruct (erk_lipschitz_converges m n f phi t0 t1 L K M Hm Ht HL Hs Hf Hst) as (C & HC & B). exists C. split; [exact HC|].
  intros E LA X St F HF o oo dt Hoo Had Hmax Hdt w. assert (Hn : length (phi t0) = n) by apply Hs. rewrite <- Hn in Hd.
  destruct (fixed_final E LA St F t0 t1 (phi t0) o oo m dt (total_returns _ _ _ HF Hd) Hm Hoo Ht Hdt Had w) as (N & w' & sol & Hrun & Hgrid & _ & Hok).
  exists w', sol. split; [exists N; exact Hrun|]. specialize (Hok Hmax). specialize (Hrun N (le_n _)).
  split; [exact Hok|]. destruct (erk_times F _ _ _ _ _ _ _ _ _ _ _ (or_intror (conj Ht Hdt)) Hrun) as (_ & _ & Hl). specialize (Hl Hok). split; [exact Hl|].
  assert (A : forall k q, (k < length (eo_t_vals sol))%nat -> (q < n)%nat -> Rabs (ventry (nth k (eo_y_vals sol) []) q - ventry (phi (nth k (eo_t_vals sol) 0)) q) <= C * dt).
  { intros k q Hk Hq. apply (B E LA X St F (total_computes _ _ HF) N o oo dt w w' sol dt Hdt Hrun); try assumption; [|lra]. apply (fixed_steps t0 t1); [lra|exact Hgrid]. }
  split; [exact A|]. intros q Hq.
  destruct (erk_aligned F N t0 t1 (phi t0) o oo m dt w w' sol Hrun) as (L1 & L2 & _).
  assert (Ne : eo_t_vals sol <> []) by (intros H; rewrite H in L1; simpl in L1; lia). assert (Ne2 : eo_y_vals sol <> []) by (intros H; rewrite H in L2; simpl in L2; lia).
  rewrite <- Hl, <- (last_at (eo_t_vals sol) 0 t0 Ne), <- (last_at (eo_y_vals sol) [] [] Ne2), L2. apply A; [|exact Hq]. destruct (eo_t_vals sol); [contradiction|simpl; lia].
Qed.
