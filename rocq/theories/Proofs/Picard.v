(** Implicit methods: stages that solve their equations only up to a defect, compared with the iterates of Picard. *)
From Coq Require Import Reals Lra FunctionalExtensionality.
From Coquelicot Require Import Coquelicot.
From Verif Require Import Model.Base Spec.Sums Spec.Trees Proofs.SumsProofs Proofs.OrderTheory Proofs.Convergence.
Local Open Scope R_scope.

Section Picard.
Variables (n P : nat) (M : R) (df : list nat -> vec -> nat -> R).
Hypothesis HM : 0 <= M.
Hypothesis HP : (1 <= P)%nat.
Variables (st : nat) (a : nat -> nat -> R) (b : nat -> R).
Local Notation small := (small n).
Local Notation good := (good n P M df).
Local Notation asum := (asum st a).
Local Notation bsum := (bsum st b).
Local Notation iterate := (iterate df st a).
Local Notation slope y Z i q := (df [] (fun p => y p + Z i p) q).

Lemma aM : 0 <= asum * M.
Proof. apply Rmult_le_pos; [apply asum_pos|exact HM]. Qed.
Lemma iterate_small y r h m i : good y r -> 0 <= h -> 0 <= r -> asum * M * h <= r -> (i < st)%nat -> small r (iterate y h m i) /\ small (asum * M * h) (iterate y h m i).
Proof.
  intros Hg Hh Hr Hs. revert i. induction m as [|m IH]; intros i Hi.
  - split; intros q Hq; simpl; rewrite Rabs_R0; [exact Hr|]. apply Rmult_le_pos; [apply aM|exact Hh].
  - assert (E : small (asum * M * h) (iterate y h (S m) i)).
    { intros q Hq. simpl. rewrite Rabs_mult, (Rabs_pos_eq h) by lra. rewrite Rmult_comm. apply Rmult_le_compat_r; [exact Hh|].
      eapply Rle_trans; [apply (weighted_bound _ _ M)|apply Rmult_le_compat_r; [exact HM|apply arow; exact Hi]]; [exact HM|].
      intros j Hj. apply (proj1 Hg); [simpl; lia|exact Hq|]. intros p Hp. replace (y p + iterate y h m j p - y p) with (iterate y h m j p) by ring. apply (proj1 (IH j Hj)). exact Hp. }
    split; [|exact E]. intros q Hq. eapply Rle_trans; [apply E; exact Hq|exact Hs].
Qed.
Definition picard (m : nat) (y : vec) (r h : R) (Z : nat -> vec) : Prop := 0 <= r /\ asum * M * h <= r /\ forall i, (i < st)%nat -> Z i = iterate y h m i.
Lemma picard_small m y r h Z i : good y r -> 0 <= h -> picard m y r h Z -> (i < st)%nat -> small r (Z i) /\ small (asum * M * h) (Z i).
Proof. intros Hg Hh (Hr & Hs & HZ) Hi. rewrite (HZ i Hi). apply iterate_small; assumption. Qed.

Lemma picard_expansion k : (k <= P)%nat -> exists C, 0 <= C /\ forall y r h Z, 0 <= r -> good y r -> 0 <= h <= 1 -> picard k y r h Z ->
  forall i q, (i < st)%nat -> (q < n)%nat -> Rabs (Z i q - BS n P df (stage_u st a i) y k h q) <= C * h ^ S k.
Proof.
  induction k as [|k IH]; intros Hk.
  - exists 0. split; [lra|]. intros y r h Z Hr Hg Hh (_ & _ & HZ) i q Hi Hq. rewrite (HZ i Hi). unfold BS. simpl. rewrite Rminus_0_r, Rabs_R0. lra.
  - destruct (slope_expansion_of n P M df HM st a (picard k) k Hk (picard_small k) (IH ltac:(lia))) as (C & HC & K). exists (asum * C). split; [apply Rmult_le_pos; [apply asum_pos|exact HC]|].
    intros y r h Z Hr Hg Hh (_ & Hs & HZ) i q Hi Hq. rewrite (HZ i Hi). cbn [Convergence.iterate]. unfold BS. rewrite h_slope. unfold stage_u. rewrite <- (slope_sum n df st a (a i)).
    rewrite <- Rmult_minus_distr_l, <- Rsum_minus, Rabs_mult, (Rabs_pos_eq h) by lra.
    replace (asum * C * h ^ S (S k)) with (h * (asum * (C * h ^ S k))) by (simpl; ring). apply Rmult_le_compat_l; [lra|].
    erewrite Rsum_ext; [|intros j _; rewrite <- Rmult_minus_distr_l; reflexivity].
    assert (0 <= C * h ^ S k) by (apply Rmult_le_pos; [exact HC|apply pow_le; lra]).
    eapply Rle_trans; [apply weighted_bound with (B := C * h ^ S k)|apply Rmult_le_compat_r; [assumption|apply arow; exact Hi]]; [assumption|].
    intros j Hj. apply (K y r h (iterate y h k)); try assumption. split; [exact Hr|]. split; [exact Hs|]. reflexivity.
Qed.

(** Successive iterates differ less and less. *)
Lemma picard_contracts m : exists C, 0 <= C /\ forall y r h, 0 <= r -> good y r -> 0 <= h -> asum * M * h <= r ->
  forall i, (i < st)%nat -> small (C * h ^ S m) (fun q => iterate y h (S m) i q - iterate y h m i q).
Proof.
  induction m as [|m (C & HC & IH)].
  - exists (asum * M). split; [apply aM|]. intros y r h Hr Hg Hh Hs i Hi q Hq. cbv beta. change (iterate y h 0 i q) with 0. rewrite Rminus_0_r, pow_1. apply (iterate_small y r h 1 i); assumption.
  - exists (asum * (INR n * M) * C). assert (HnM : 0 <= INR n * M) by (apply Rmult_le_pos; [apply pos_INR|exact HM]).
    split; [apply Rmult_le_pos; [apply Rmult_le_pos; [apply asum_pos|exact HnM]|exact HC]|].
    intros y r h Hr Hg Hh Hs i Hi q Hq. cbv beta.
    change (Rabs (h * Rsum st (fun j => a i j * slope y (iterate y h (S m)) j q) - h * Rsum st (fun j => a i j * slope y (iterate y h m) j q)) <= asum * (INR n * M) * C * h ^ S (S m)).
    rewrite <- Rmult_minus_distr_l, <- Rsum_minus, Rabs_mult, (Rabs_pos_eq h) by lra. erewrite Rsum_ext; [|intros j _; rewrite <- Rmult_minus_distr_l; reflexivity].
    assert (HCh : 0 <= C * h ^ S m) by (apply Rmult_le_pos; [exact HC|apply pow_le; exact Hh]).
    replace (asum * (INR n * M) * C * h ^ S (S m)) with (h * (asum * (INR n * M * (C * h ^ S m)))) by (simpl; ring). apply Rmult_le_compat_l; [exact Hh|].
    assert (HB : 0 <= INR n * M * (C * h ^ S m)) by (apply Rmult_le_pos; assumption).
    eapply Rle_trans; [apply weighted_bound with (B := INR n * M * (C * h ^ S m)); [exact HB|]|apply Rmult_le_compat_r; [exact HB|apply arow; exact Hi]].
    intros j Hj. apply (lipschitz n P M df HP y r); try assumption.
    + intros p Hp. replace (y p + iterate y h (S m) j p - y p) with (iterate y h (S m) j p) by ring. apply (iterate_small y r h (S m) j); assumption.
    + intros p Hp. replace (y p + iterate y h m j p - y p) with (iterate y h m j p) by ring. apply (iterate_small y r h m j); assumption.
    + intros p Hp. replace (y p + iterate y h (S m) j p - (y p + iterate y h m j p)) with (iterate y h (S m) j p - iterate y h m j p) by ring. apply (IH y r h Hr Hg Hh Hs j Hj p Hp).
Qed.

(** Z solves the stage equations from x up to a defect of at most rho; the points are within r of y. *)
Definition stages_upto (y x : vec) (r h rho : R) (Z : nat -> vec) : Prop :=
  forall i, (i < st)%nat -> small r (fun p => x p + Z i p - y p) /\ small rho (fun q => Z i q - h * Rsum st (fun j => a i j * slope x Z j q)).

Lemma perturbed_upto y x r h Z W e r1 r2 : 0 <= e -> 0 <= r1 -> 0 <= r2 -> good y r -> 0 <= h -> asum * (INR n * M) * h <= 1 / 2 -> small e (fun i => x i - y i) ->
  stages_upto y x r h r1 Z -> stages_upto y y r h r2 W ->
  forall i q, (i < st)%nat -> (q < n)%nat -> Rabs (slope x Z i q - slope y W i q) <= 2 * (INR n * M) * (e + r1 + r2).
Proof.
  intros He Hr1 Hr2 Hg Hh Hs Hx HZ HW.
  destruct (finite_max2 st n (fun i q => slope x Z i q - slope y W i q)) as (k & Hk & K1 & K2).
  assert (HnM : 0 <= INR n * M) by (apply Rmult_le_pos; [apply pos_INR|exact HM]).
  assert (E : forall i q, (i < st)%nat -> (q < n)%nat -> Rabs (slope x Z i q - slope y W i q) <= INR n * M * (e + (r1 + r2) + h * (asum * k))).
  { intros i q Hi Hq. assert (0 <= h * (asum * k)). { apply Rmult_le_pos; [exact Hh|]. apply Rmult_le_pos; [apply asum_pos|exact Hk]. }
    apply (lipschitz n P M df HP y r); [lra|exact Hg|apply HZ; exact Hi|apply HW; exact Hi| |exact Hq].
    intros p Hp. destruct (HZ i Hi) as [_ Z2]. destruct (HW i Hi) as [_ W2]. specialize (Z2 p Hp). specialize (W2 p Hp). cbv beta in Z2, W2. specialize (Hx p Hp). cbv beta in Hx.
    assert (E1 : Rabs (h * (Rsum st (fun j => a i j * (slope x Z j p - slope y W j p)))) <= h * (asum * k)).
    { rewrite Rabs_mult, (Rabs_pos_eq h) by lra. apply Rmult_le_compat_l; [exact Hh|].
      eapply Rle_trans; [apply weighted_bound with (B := k); [exact Hk|]|apply Rmult_le_compat_r; [exact Hk|apply arow; exact Hi]]. intros j Hj. apply (K1 j p Hj Hp). }
    rewrite (Rsum_ext st _ (fun j => a i j * slope x Z j p - a i j * slope y W j p)) in E1 by (intros; ring). rewrite Rsum_minus, Rmult_minus_distr_l in E1.
    set (u := h * Rsum st (fun j => a i j * slope x Z j p)) in * . set (v := h * Rsum st (fun j => a i j * slope y W j p)) in * .
    replace (x p + Z i p - (y p + W i p)) with ((x p - y p) + (Z i p - u) + - (W i p - v) + (u - v)) by ring.
    pose proof (Rabs_triang ((x p - y p) + (Z i p - u) + - (W i p - v)) (u - v)). pose proof (Rabs_triang ((x p - y p) + (Z i p - u)) (- (W i p - v))). pose proof (Rabs_triang (x p - y p) (Z i p - u)).
    rewrite Rabs_Ropp in * . lra. }
  assert (Hkb : k <= 2 * (INR n * M) * (e + r1 + r2)).
  { destruct K2 as [->|(i & q & Hi & Hq & ->)]; [apply Rmult_le_pos; lra|]. specialize (E i q Hi Hq). set (kk := Rabs _) in * .
    assert (INR n * M * (h * (asum * kk)) <= kk / 2).
    { replace (INR n * M * (h * (asum * kk))) with (asum * (INR n * M) * h * kk) by ring. assert (0 <= kk) by apply Rabs_pos. nra. }
    rewrite Rmult_plus_distr_l in E. lra. }
  intros i q Hi Hq. specialize (K1 i q Hi Hq). cbv beta in K1. lra.
Qed.

(** One step with stages up to a defect, and a final error of at most r2, compared with the solution from y. *)
Lemma one_step_upto : has_order st a b P -> exists C, 0 <= C /\ forall y r X x h Z x' e r1 r2, 0 <= r -> 0 <= e -> 0 <= r1 -> 0 <= r2 -> good y r -> 0 <= h <= 1 -> asum * (INR n * M) * h <= 1 / 2 -> asum * M * h <= r ->
  flows n df X y r h -> small e (fun i => x i - y i) -> stages_upto y x r h r1 Z ->
  small r2 (fun q => x' q - (x q + h * Rsum st (fun i => b i * slope x Z i q))) ->
  small (e * (1 + 2 * bsum * (INR n * M) * h) + 2 * bsum * (INR n * M) * h * r1 + r2 + C * h ^ S P) (fun q => x' q - X h q).
Proof.
  intros Hord.
  assert (HPe : S (P - 1) = P) by lia.
  destruct (local_error_of n P M df HM st a b (picard (P - 1)) (picard_small (P - 1)) (picard_expansion (P - 1) ltac:(lia)) HP Hord) as (C & HC & K).
  destruct (picard_contracts (P - 1)) as (C1 & HC1 & K1).
  assert (HnM : 0 <= INR n * M) by (apply Rmult_le_pos; [apply pos_INR|exact HM]). pose proof (bsum_pos st b) as Hb.
  set (B0 := 2 * bsum * (INR n * M)). assert (HB0 : 0 <= B0) by (unfold B0; apply Rmult_le_pos; [lra|exact HnM]).
  exists (C + B0 * C1). split; [pose proof (Rmult_le_pos _ _ HB0 HC1); lra|].
  intros y r X x h Z x' e r1 r2 Hr He Hr1 Hr2 Hg Hh Hs Hsr HX Hx HZ Hx' q Hq.
  set (W := iterate y h (P - 1)).
  assert (Hpic : picard (P - 1) y r h W) by (split; [exact Hr|split; [exact Hsr|reflexivity]]).
  specialize (K y r X h W Hr Hg Hh HX Hpic q Hq).
  assert (Hrho : 0 <= C1 * h ^ P) by (apply Rmult_le_pos; [exact HC1|apply pow_le; lra]).
  assert (HW : stages_upto y y r h (C1 * h ^ P) W).
  { intros i Hi. split.
    - intros p Hp. replace (y p + W i p - y p) with (W i p) by ring. apply (iterate_small y r h (P - 1) i); try assumption; lra.
    - intros p Hp. rewrite Rabs_minus_sym. pose proof (K1 y r h Hr Hg (proj1 Hh) Hsr i Hi p Hp) as E. replace (h ^ P) with (h ^ S (P - 1)) by (rewrite HPe; reflexivity). exact E. }
  pose proof (perturbed_upto y x r h Z W e r1 (C1 * h ^ P) He Hr1 Hrho Hg (proj1 Hh) Hs Hx HZ HW) as Kp.
  set (A := fun i => slope x Z i q). set (B := fun i => slope y W i q) in * . specialize (Hx' q Hq). cbv beta in Hx'.
  change (Rabs (X h q - (y q + h * Rsum st (fun i => b i * B i))) <= C * h ^ S P) in K. cbv beta.
  change (Rabs (x' q - (x q + h * Rsum st (fun i => b i * A i))) <= r2) in Hx'.
  replace (x' q - X h q) with ((x q - y q) + h * (Rsum st (fun i => b i * (A i - B i))) + - (X h q - (y q + h * Rsum st (fun i => b i * B i))) + (x' q - (x q + h * Rsum st (fun i => b i * A i)))).
  - assert (E2 : Rabs (h * Rsum st (fun i => b i * (A i - B i))) <= B0 * h * (e + r1 + C1 * h ^ P)).
    { rewrite Rabs_mult, (Rabs_pos_eq h) by lra.
      replace (B0 * h * (e + r1 + C1 * h ^ P)) with (h * (bsum * (2 * (INR n * M) * (e + r1 + C1 * h ^ P)))) by (unfold B0; ring).
      apply Rmult_le_compat_l; [lra|]. apply weighted_bound; [|intros i Hi; apply Kp; assumption]. apply Rmult_le_pos; lra. }
    specialize (Hx q Hq). cbv beta in Hx. rewrite !Rmult_plus_distr_l in E2.
    replace (B0 * h * (C1 * h ^ P)) with (B0 * C1 * h ^ S P) in E2 by (simpl; ring).
    set (d1 := x q - y q) in * . set (d2 := h * Rsum st (fun i => b i * (A i - B i))) in * . set (d3 := X h q - (y q + h * Rsum st (fun i => b i * B i))) in * . set (d4 := x' q - (x q + h * Rsum st (fun i => b i * A i))) in * .
    pose proof (Rabs_triang (d1 + d2 + - d3) d4). pose proof (Rabs_triang (d1 + d2) (- d3)). pose proof (Rabs_triang d1 d2). rewrite Rabs_Ropp in * .
    replace (B0 * h * e) with (e * (B0 * h)) in E2 by ring. lra.
  - erewrite (Rsum_ext st (fun i => b i * (A i - B i))); [|intros i _; rewrite Rmult_minus_distr_l; reflexivity]. rewrite Rsum_minus. ring.
Qed.

Lemma flow_along t0 t1 r (X : R -> vec) t h : 0 < r -> (forall t, t0 <= t <= t1 -> good (X t) r) -> (forall t q, t0 <= t <= t1 -> (q < n)%nat -> is_derive (fun t => X t q) t (df [] (X t) q)) ->
  t0 <= t -> t + h <= t1 -> M * h <= r -> flows n df (fun s => X (t + s)) (X t) r h.
Proof.
  intros Hr Hg HX Htt Hth HMh.
  assert (Hd : forall u p, 0 <= u <= h -> (p < n)%nat -> is_derive (fun s => X (t + s) p) u (df [] (X (t + u)) p)).
  { intros u p Hu Hp. pose proof (HX (t + u) p ltac:(lra) Hp) as Hd. 
    apply (is_derive_comp (fun t => X t p) (fun s => t + s) u (df [] (X (t + u)) p) 1) in Hd; [|auto_derive; [exact I|ring]].
    unfold scal in Hd. simpl in Hd. unfold mult in Hd. simpl in Hd. rewrite Rmult_1_l in Hd. exact Hd. }
  split; [rewrite Rplus_0_r; reflexivity|]. split; [intros s p Hs Hp; apply Hd; assumption|].
  intros s Hs p Hp. replace (X t p) with (X (t + 0) p) by (rewrite Rplus_0_r; reflexivity).
  eapply Rle_trans; [apply (growth (fun s => X (t + s) p) (fun s => df [] (X (t + s)) p) s M (proj1 Hs))|].
  - intros u Hu. apply Hd; [lra|exact Hp].
  - intros u Hu. apply (proj1 (Hg (t + u) ltac:(lra))); [simpl; lia|exact Hp|]. intros i _. rewrite Rminus_diag_eq, Rabs_R0 by reflexivity. lra.
  - apply Rle_trans with (M * h); [apply Rmult_le_compat_l; lra|exact HMh].
Qed.

Lemma gronwall_upto K C D h H T k e tau : 0 <= K -> 0 <= C -> 0 <= D -> 0 <= tau -> 0 <= h <= H -> 0 <= T -> 0 <= k -> e <= exp (K * T) * (T * (C * H ^ P) + k * (D * tau)) -> 0 <= e ->
  e * (1 + K * h) + D * tau + C * h ^ S P <= exp (K * (T + h)) * ((T + h) * (C * H ^ P) + (k + 1) * (D * tau)).
Proof.
  intros HK HC HD Htau Hh HT Hk0 He He0. assert (Hp : h ^ P <= H ^ P) by (apply pow_incr; exact Hh). assert (Hhp : 0 <= h ^ P) by (apply pow_le; lra).
  assert (HCH : 0 <= C * H ^ P) by (apply Rmult_le_pos; lra). assert (HDt : 0 <= D * tau) by (apply Rmult_le_pos; assumption).
  assert (Hexp1 : 1 + K * h <= exp (K * h)) by (pose proof (exp_ineq1_le (K * h)); lra).
  assert (Hkh : 0 <= K * h) by (apply Rmult_le_pos; lra). assert (HKT : 0 <= K * T) by (apply Rmult_le_pos; lra).
  assert (E1 : 1 <= exp (K * (T + h))). { pose proof (exp_ineq1_le (K * (T + h))). assert (0 <= K * (T + h)) by (apply Rmult_le_pos; lra). lra. }
  assert (A1 : e * (1 + K * h) <= exp (K * (T + h)) * (T * (C * H ^ P) + k * (D * tau))).
  { rewrite (Rmult_plus_distr_l K), exp_plus. apply Rle_trans with (exp (K * T) * (T * (C * H ^ P) + k * (D * tau)) * exp (K * h)); [|right; ring]. apply Rmult_le_compat; lra. }
  assert (A2 : C * h ^ S P <= h * (C * H ^ P)).
  { simpl. replace (C * (h * h ^ P)) with (h * (C * h ^ P)) by ring. apply Rmult_le_compat_l; [lra|]. apply Rmult_le_compat_l; assumption. }
  assert (A3 : h * (C * H ^ P) + D * tau <= exp (K * (T + h)) * (h * (C * H ^ P) + D * tau)).
  { assert (0 <= h * (C * H ^ P)) by (apply Rmult_le_pos; lra). rewrite <- (Rmult_1_l (h * (C * H ^ P) + D * tau)) at 1. apply Rmult_le_compat_r; lra. }
  replace (exp (K * (T + h)) * ((T + h) * (C * H ^ P) + (k + 1) * (D * tau))) with
    (exp (K * (T + h)) * (T * (C * H ^ P) + k * (D * tau)) + exp (K * (T + h)) * (h * (C * H ^ P) + D * tau)) by ring. lra.
Qed.

(** A numerical trajectory whose steps, as long as it is within e0 of X, have stages up to a defect c1 tau and an error c2 tau. *)
Lemma many_steps_upto t0 t1 r (X : R -> vec) e0 c1 c2 : t0 < t1 -> 0 < r -> has_order st a b P ->
  (forall t, t0 <= t <= t1 -> good (X t) r) -> (forall t q, t0 <= t <= t1 -> (q < n)%nat -> is_derive (fun t => X t q) t (df [] (X t) q)) ->
  0 < e0 -> 0 <= c1 -> 0 <= c2 ->
  exists h0 C, 0 < h0 /\ 0 <= C /\ forall N (tk : nat -> R) (xk : nat -> vec) H tau, 0 <= H <= h0 -> 0 <= tau -> INR N * tau <= h0 -> tk O = t0 -> (forall k, (k <= N)%nat -> t0 <= tk k <= t1) ->
  (forall k, (k < N)%nat -> 0 <= tk (S k) - tk k <= H) -> (forall q, (q < n)%nat -> xk O q = X t0 q) ->
  (forall k, (k < N)%nat -> small e0 (fun q => xk k q - X (tk k) q) -> let h := tk (S k) - tk k in
     exists Z, stages_upto (X (tk k)) (xk k) r h (c1 * tau) Z /\
       small (c2 * tau) (fun q => xk (S k) q - (xk k q + h * Rsum st (fun i => b i * slope (xk k) Z i q)))) ->
  forall k, (k <= N)%nat -> small (C * (H ^ P + INR k * tau)) (fun q => xk k q - X (tk k) q).
Proof.
  intros Ht Hr Hord Hg HX He0 Hc1 Hc2. destruct (one_step_upto Hord) as (C & HC & K1).
  set (K := 2 * bsum * (INR n * M)). set (D := K * c1 + c2). 
  pose proof (pos_INR n) as Hn. pose proof (bsum_pos st b) as Hb. pose proof (asum_pos st a) as Ha.
  assert (HK : 0 <= K). { unfold K. apply Rmult_le_pos; [lra|]. apply Rmult_le_pos; assumption. }
  assert (HD : 0 <= D). { unfold D. pose proof (Rmult_le_pos _ _ HK Hc1). lra. }
  set (G := exp (K * (t1 - t0)) * ((t1 - t0) * C + D)).
  assert (HG0 : 0 <= (t1 - t0) * C) by (apply Rmult_le_pos; lra).
  assert (HG : 0 <= G). { unfold G. apply Rmult_le_pos; [left; apply exp_pos|lra]. }
  set (D0 := 1 + 2 * (asum * (INR n * M)) + (asum * M + M) / r + 2 * G / e0).
  assert (Hq : 0 <= (asum * M + M) / r). { apply Rmult_le_pos; [|left; apply Rinv_0_lt_compat; exact Hr]. pose proof aM. lra. }
  assert (Hq2 : 0 <= asum * (INR n * M)). { apply Rmult_le_pos; [exact Ha|apply Rmult_le_pos; assumption]. }
  assert (Hq3 : 0 <= 2 * G / e0). { apply Rmult_le_pos; [lra|left; apply Rinv_0_lt_compat; exact He0]. }
  assert (HD0 : 1 <= D0) by (unfold D0; lra).
  exists (/ D0), G. split; [apply Rinv_0_lt_compat; lra|]. split; [exact HG|].
  intros N tk xk H tau HH Htau HN Htk0 Htk Hst Hx0 Hsteps.
  assert (Hsm : forall h, 0 <= h <= / D0 -> h <= 1 /\ asum * (INR n * M) * h <= 1 / 2 /\ asum * M * h <= r /\ M * h <= r /\ G * h <= e0 / 2).
  { intros h Hh. assert (Hd : h * D0 <= 1). { apply Rle_trans with (/ D0 * D0); [apply Rmult_le_compat_r; lra|]. right. field. lra. }
    unfold D0 in Hd. rewrite !Rmult_plus_distr_l in Hd. pose proof aM as HaM.
    assert (X1 : 0 <= h * ((asum * M + M) / r)) by (apply Rmult_le_pos; [lra|exact Hq]). assert (X2 : 0 <= h * (2 * (asum * (INR n * M)))) by (apply Rmult_le_pos; lra). assert (X3 : 0 <= h * (2 * G / e0)) by (apply Rmult_le_pos; lra).
    assert (Y1 : h * ((asum * M + M) / r) <= 1) by lra. apply (Rmult_le_compat_r r) in Y1; [|lra]. replace (h * ((asum * M + M) / r) * r) with (asum * M * h + M * h) in Y1 by (field; lra).
    assert (Y3 : h * (2 * G / e0) <= 1) by lra. apply (Rmult_le_compat_r (e0 / 2)) in Y3; [|lra]. replace (h * (2 * G / e0) * (e0 / 2)) with (G * h) in Y3 by (field; lra).
    assert (0 <= asum * M * h) by (apply Rmult_le_pos; lra). assert (0 <= M * h) by (apply Rmult_le_pos; lra). lra. }
  assert (HHP : 0 <= H ^ P) by (apply pow_le; lra).
  set (bd := fun k => exp (K * (tk k - t0)) * ((tk k - t0) * (C * H ^ P) + INR k * (D * tau))).
  assert (Hbd : forall k, (k <= N)%nat -> 0 <= bd k <= G * (H ^ P + INR k * tau)).
  { intros k Hk. specialize (Htk k Hk). pose proof (pos_INR k) as Hki. assert (0 <= C * H ^ P) by (apply Rmult_le_pos; assumption). assert (0 <= D * tau) by (apply Rmult_le_pos; assumption).
    assert (Hkt : 0 <= INR k * tau) by (apply Rmult_le_pos; assumption).
    assert (Z1 : 0 <= (tk k - t0) * (C * H ^ P)) by (apply Rmult_le_pos; lra). assert (Z2 : 0 <= INR k * (D * tau)) by (apply Rmult_le_pos; assumption). unfold bd. split.
    - apply Rmult_le_pos; [left; apply exp_pos|lra].
    - unfold G. rewrite Rmult_assoc. apply Rmult_le_compat; [left; apply exp_pos|lra|apply exp_mono; apply Rmult_le_compat_l; lra|].
      rewrite Rmult_plus_distr_r, !Rmult_plus_distr_l.
      assert ((tk k - t0) * (C * H ^ P) <= (t1 - t0) * C * H ^ P) by (rewrite Rmult_assoc; apply Rmult_le_compat_r; lra).
      assert (0 <= (t1 - t0) * C * (INR k * tau)) by (apply Rmult_le_pos; assumption). assert (0 <= D * H ^ P) by (apply Rmult_le_pos; assumption).
      replace (D * (INR k * tau)) with (INR k * (D * tau)) by ring. lra. }
  assert (Hbe : forall k, (k <= N)%nat -> bd k <= e0).
  { intros k Hk. eapply Rle_trans; [apply Hbd; exact Hk|]. destruct (Hsm H HH) as (H1 & _ & _ & _ & HGH).
    assert (Hkn : INR k * tau <= / D0). { eapply Rle_trans; [|exact HN]. apply Rmult_le_compat_r; [exact Htau|apply le_INR; exact Hk]. }
    destruct (Hsm (INR k * tau)) as (_ & _ & _ & _ & HGk); [split; [apply Rmult_le_pos; [apply pos_INR|exact Htau]|exact Hkn]|].
    assert (H ^ P <= H). { rewrite <- (pow_1 H) at 2. apply pow_small; [lra|exact HP]. }
    assert (G * H ^ P <= G * H) by (apply Rmult_le_compat_l; assumption). rewrite Rmult_plus_distr_l. lra. }
  assert (Hall : forall k, (k <= N)%nat -> small (bd k) (fun q => xk k q - X (tk k) q)).
  { induction k as [|k IH]; intros Hk q Hq'.
    - unfold bd. rewrite Htk0, Hx0 by exact Hq'. rewrite Rminus_diag_eq, Rabs_R0 by reflexivity. rewrite (Rminus_diag_eq t0 t0) by reflexivity. simpl. right. ring.
    - specialize (IH ltac:(lia)). assert (IHe : small e0 (fun q => xk k q - X (tk k) q)). { intros p Hp. eapply Rle_trans; [apply (IH p Hp)|apply Hbe; lia]. }
      destruct (Hsteps k ltac:(lia) IHe) as (Z & HZ & Hxs). pose proof (Htk k ltac:(lia)) as Htk1. pose proof (Htk (S k) Hk) as Htk2. pose proof (Hst k ltac:(lia)) as Hsk.
      set (h := tk (S k) - tk k) in * . destruct (Hsm h ltac:(lra)) as (S1 & S2 & S3 & S4 & _).
      pose proof (flow_along t0 t1 r X (tk k) h Hr Hg HX ltac:(lra) ltac:(unfold h; lra) S4) as HF.
      assert (Hr1 : 0 <= c1 * tau) by (apply Rmult_le_pos; assumption). assert (Hr2 : 0 <= c2 * tau) by (apply Rmult_le_pos; assumption).
      pose proof (K1 (X (tk k)) r (fun s => X (tk k + s)) (xk k) h Z (xk (S k)) (bd k) (c1 * tau) (c2 * tau) ltac:(lra) (proj1 (Hbd k ltac:(lia))) Hr1 Hr2 (Hg (tk k) ltac:(lra)) ltac:(lra) S2 S3 HF IH HZ Hxs q Hq') as E.
      cbv beta in E. replace (tk k + h) with (tk (S k)) in E by (unfold h; ring). eapply Rle_trans; [exact E|]. fold K.
      assert (HKh : K * h * (c1 * tau) <= K * c1 * tau).
      { replace (K * h * (c1 * tau)) with (h * (K * c1 * tau)) by ring. assert (0 <= K * c1 * tau) by (apply Rmult_le_pos; [apply Rmult_le_pos; assumption|assumption]). nra. }
      assert (HDt : K * h * (c1 * tau) + c2 * tau <= D * tau) by (unfold D; lra).
      pose proof (gronwall_upto K C D h H (tk k - t0) (INR k) (bd k) tau HK HC HD Htau Hsk ltac:(lra) (pos_INR k) ltac:(unfold bd; lra) (proj1 (Hbd k ltac:(lia)))) as Gr.
      replace (tk k - t0 + h) with (tk (S k) - t0) in Gr by (unfold h; ring). unfold bd at 2. rewrite S_INR. lra. }
  intros k Hk q Hq'. eapply Rle_trans; [apply Hall; assumption|]. apply (Hbd k Hk).
Qed.
End Picard.
