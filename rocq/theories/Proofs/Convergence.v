(** From the local to the global error: one step from a nearby point, and a discrete Gronwall inequality. *)
From Coq Require Import Reals Lra FunctionalExtensionality.
From Coquelicot Require Import Coquelicot.
From Verif Require Import Model.Base Spec.Sums Spec.Trees Proofs.SumsProofs Proofs.OrderTheory.
Local Open Scope R_scope.

Lemma finite_max m (f : nat -> R) : exists k, 0 <= k /\ (forall i, (i < m)%nat -> Rabs (f i) <= k) /\ (k = 0 \/ exists i, (i < m)%nat /\ k = Rabs (f i)).
Proof.
  induction m as [|m (k & Hk & K1 & K2)]; [exists 0; split; [lra|]; split; [intros; lia|left; reflexivity]|].
  destruct (Rle_dec (Rabs (f m)) k) as [Hf|Hf].
  - exists k. split; [exact Hk|]. split; [|destruct K2 as [?|(i & ? & ?)]; [left; assumption|right; exists i; split; [lia|assumption]]].
    intros i Hi. destruct (Nat.eq_dec i m) as [->|]; [exact Hf|apply K1; lia].
  - exists (Rabs (f m)). split; [apply Rabs_pos|]. split; [|right; exists m; split; [lia|reflexivity]].
    intros i Hi. destruct (Nat.eq_dec i m) as [->|]; [lra|]. specialize (K1 i ltac:(lia)). lra.
Qed.
Lemma finite_max2 m n (f : nat -> nat -> R) : exists k, 0 <= k /\ (forall i q, (i < m)%nat -> (q < n)%nat -> Rabs (f i q) <= k) /\ (k = 0 \/ exists i q, (i < m)%nat /\ (q < n)%nat /\ k = Rabs (f i q)).
Proof.
  induction m as [|m (k & Hk & K1 & K2)]; [exists 0; split; [lra|]; split; [intros; lia|left; reflexivity]|].
  destruct (finite_max n (f m)) as (k' & Hk' & K1' & K2'). destruct (Rle_dec k' k) as [Hf|Hf].
  - exists k. split; [exact Hk|]. split; [|destruct K2 as [?|(i & q & ? & ? & ?)]; [left; assumption|right; exists i, q; split; [lia|split; assumption]]].
    intros i q Hi Hq. destruct (Nat.eq_dec i m) as [->|]; [specialize (K1' q Hq); lra|apply K1; [lia|exact Hq]].
  - exists k'. split; [exact Hk'|]. split; [|destruct K2' as [?|(q & ? & ?)]; [left; assumption|right; exists m, q; split; [lia|split; assumption]]].
    intros i q Hi Hq. destruct (Nat.eq_dec i m) as [->|]; [apply K1'; exact Hq|]. specialize (K1 i q ltac:(lia) Hq). lra.
Qed.

Lemma exp_mono x y : x <= y -> exp x <= exp y.
Proof. intros [Hl| ->]; [left; apply exp_increasing; exact Hl|lra]. Qed.

Section Step.
Variables (n P : nat) (M : R) (df : list nat -> vec -> nat -> R).
Hypothesis HM : 0 <= M.
Hypothesis HP : (1 <= P)%nat.
Variables (st : nat) (a : nat -> nat -> R) (b : nat -> R).
Local Notation small := (small n).
Local Notation good := (good n P M df).
Local Notation asum := (asum st a).
Local Notation bsum := (bsum st b).

Lemma lipschitz y r x1 x2 e q : 0 <= e -> good y r -> small r (fun i => x1 i - y i) -> small r (fun i => x2 i - y i) -> small e (fun i => x1 i - x2 i) -> (q < n)%nat ->
  Rabs (df [] x1 q - df [] x2 q) <= INR n * M * e.
Proof.
  intros He Hg H1 H2 Hx Hq. set (v := fun i => x1 i - x2 i).
  assert (Hl : forall s, 0 <= s <= 1 -> small r (fun i => x2 i + s * v i - y i)).
  { intros s Hs i Hi. unfold v. replace (x2 i + s * (x1 i - x2 i) - y i) with (s * (x1 i - y i) + (1 - s) * (x2 i - y i)) by ring.
    eapply Rle_trans; [apply Rabs_triang|]. rewrite !Rabs_mult, (Rabs_pos_eq s), (Rabs_pos_eq (1 - s)) by lra.
    specialize (H1 i Hi). specialize (H2 i Hi). cbv beta in H1, H2. nra. }
  pose proof (growth (fun s => df [] (fun i => x2 i + s * v i) q) (fun s => Rsum n (fun i => v i * df [i] (fun i => x2 i + s * v i) q)) 1 (INR n * M * e) ltac:(lra)) as G.
  cbv beta in G. replace (fun i => x2 i + 1 * v i) with x1 in G by (extensionality i; unfold v; ring). replace (fun i => x2 i + 0 * v i) with x2 in G by (extensionality i; ring).
  rewrite Rmult_1_r in G. apply G.
  - intros s Hs. apply (proj2 Hg); [simpl; lia|exact Hq|apply Hl; exact Hs].
  - intros s Hs. eapply Rle_trans; [apply Rsum_abs|]. rewrite Rmult_assoc. rewrite <- Rsum_const. apply Rsum_le. intros i Hi. rewrite Rabs_mult, Rmult_comm.
    apply Rmult_le_compat; try apply Rabs_pos; [|apply Hx; exact Hi]. apply (proj1 Hg); [simpl; lia|exact Hq|apply Hl; exact Hs].
Qed.

(** Stages from x, the points being within r of y. *)
Definition stages_at (y x : vec) (r h : R) (Z : nat -> vec) : Prop :=
  forall i, (i < st)%nat -> small r (fun p => x p + Z i p - y p) /\ forall q, (q < n)%nat -> Z i q = h * Rsum st (fun j => a i j * df [] (fun p => x p + Z j p) q).

Lemma perturbed y x r h Z W e : 0 <= e -> good y r -> 0 <= h -> asum * (INR n * M) * h <= 1 / 2 -> small e (fun i => x i - y i) -> stages_at y x r h Z -> stages n df st a y r h W ->
  forall i q, (i < st)%nat -> (q < n)%nat -> Rabs (df [] (fun p => x p + Z i p) q - df [] (fun p => y p + W i p) q) <= 2 * (INR n * M) * e.
Proof.
  intros He Hg Hh Hs Hx HZ HW.
  destruct (finite_max2 st n (fun i q => df [] (fun p => x p + Z i p) q - df [] (fun p => y p + W i p) q)) as (k & Hk & K1 & K2).
  assert (HnM : 0 <= INR n * M) by (apply Rmult_le_pos; [apply pos_INR|exact HM]).
  assert (E : forall i q, (i < st)%nat -> (q < n)%nat -> Rabs (df [] (fun p => x p + Z i p) q - df [] (fun p => y p + W i p) q) <= INR n * M * (e + h * (asum * k))).
  { intros i q Hi Hq. assert (0 <= h * (asum * k)). { apply Rmult_le_pos; [exact Hh|]. apply Rmult_le_pos; [apply asum_pos|exact Hk]. }
    apply (lipschitz y r); [lra|exact Hg|apply HZ; exact Hi| | |exact Hq].
    - intros p Hp. replace (y p + W i p - y p) with (W i p) by ring. apply (HW i Hi). exact Hp.
    - intros p Hp. replace (x p + Z i p - (y p + W i p)) with ((x p - y p) + (Z i p - W i p)) by ring. eapply Rle_trans; [apply Rabs_triang|]. apply Rplus_le_compat; [apply Hx; exact Hp|].
      rewrite (proj2 (HZ i Hi) p Hp), (proj2 (HW i Hi) p Hp), <- Rmult_minus_distr_l, <- Rsum_minus, Rabs_mult, (Rabs_pos_eq h) by lra. apply Rmult_le_compat_l; [exact Hh|].
      erewrite Rsum_ext; [|intros j _; rewrite <- Rmult_minus_distr_l; reflexivity].
      eapply Rle_trans; [apply weighted_bound with (B := k); [exact Hk|]|apply Rmult_le_compat_r; [exact Hk|apply arow; exact Hi]]. intros j Hj. apply (K1 j p Hj Hp). }
  assert (Hkb : k <= 2 * (INR n * M) * e).
  { destruct K2 as [->|(i & q & Hi & Hq & ->)]; [apply Rmult_le_pos; [lra|exact He]|]. specialize (E i q Hi Hq). set (kk := Rabs _) in * . 
    assert (INR n * M * (h * (asum * kk)) <= kk / 2).
    { replace (INR n * M * (h * (asum * kk))) with (asum * (INR n * M) * h * kk) by ring. assert (0 <= kk) by apply Rabs_pos. nra. }
    rewrite Rmult_plus_distr_l in E. lra. }
  intros i q Hi Hq. specialize (K1 i q Hi Hq). cbv beta in K1. lra.
Qed.

(** * Explicit methods *)
Hypothesis Hexp : forall i j, (i <= j)%nat -> (j < st)%nat -> a i j = 0.

Lemma explicit_stages_at y x r h Z e : 0 <= e -> good y r -> 0 <= h -> e + asum * M * h <= r -> small e (fun i => x i - y i) ->
  (forall i q, (i < st)%nat -> (q < n)%nat -> Z i q = h * Rsum st (fun j => a i j * df [] (fun p => x p + Z j p) q)) -> stages_at y x r h Z.
Proof.
  intros He Hg Hh Hr Hx HZ.
  assert (Hall : forall m i, (i < m)%nat -> (i < st)%nat -> small r (fun p => x p + Z i p - y p)).
  { induction m as [|m IH]; intros i Him Hi; [lia|]. intros p Hp. replace (x p + Z i p - y p) with ((x p - y p) + Z i p) by ring.
    eapply Rle_trans; [apply Rabs_triang|]. specialize (Hx p Hp). cbv beta in Hx. enough (Rabs (Z i p) <= asum * M * h) by lra.
    rewrite (HZ i p Hi Hp), Rabs_mult, (Rabs_pos_eq h) by lra. rewrite Rmult_comm. apply Rmult_le_compat_r; [exact Hh|].
    assert (E : Rsum st (fun j => a i j * df [] (fun q => x q + Z j q) p) = Rsum st (fun j => a i j * (if (j <? i)%nat then df [] (fun q => x q + Z j q) p else 0))).
    { apply Rsum_ext. intros j Hj. destruct (Nat.ltb_spec j i); [reflexivity|]. rewrite (Hexp i j) by assumption. ring. }
    rewrite E. eapply Rle_trans; [apply weighted_bound with (B := M); [exact HM|]|apply Rmult_le_compat_r; [exact HM|apply arow; exact Hi]].
    intros j Hj. destruct (Nat.ltb_spec j i); [|rewrite Rabs_R0; exact HM]. apply (proj1 Hg); [simpl; lia|exact Hp|]. apply IH; [lia|exact Hj]. }
  intros i Hi. split; [apply (Hall (S i)); [lia|exact Hi]|intros q Hq; apply HZ; assumption].
Qed.

(** the stages from y *)
Fixpoint iterate (y : vec) (h : R) (m : nat) (i : nat) : vec :=
  match m with O => fun _ => 0 | S m => fun q => h * Rsum st (fun j => a i j * df [] (fun p => y p + iterate y h m j p) q) end.
Lemma iterate_stable y h m : forall k i, (i < m)%nat -> (m <= k)%nat -> (i < st)%nat -> iterate y h k i = iterate y h m i.
Proof.
  induction m as [|m IH]; intros k i Hi Hk Hs; [lia|]. destruct k as [|k]; [lia|]. simpl. extensionality q. f_equal. apply Rsum_ext. intros j Hj.
  destruct (le_lt_dec i j) as [Hij|Hij]; [rewrite (Hexp i j) by assumption; ring|]. rewrite (IH k j) by lia. reflexivity.
Qed.
Lemma explicit_exists y r h : good y r -> 0 <= h -> asum * M * h <= r -> exists W, stages n df st a y r h W.
Proof.
  intros Hg Hh Hr. exists (iterate y h st).
  assert (E : forall i q, (i < st)%nat -> (q < n)%nat -> iterate y h st i q = h * Rsum st (fun j => a i j * df [] (fun p => y p + iterate y h st j p) q)).
  { intros i q Hi Hq. change (iterate y h st i q = iterate y h (S st) i q). rewrite (iterate_stable y h st (S st) i) by lia. reflexivity. }
  assert (K : stages_at y y r h (iterate y h st)).
  { apply (explicit_stages_at y y r h _ 0); try assumption; [lra|lra|]. intros i _. rewrite Rminus_diag_eq, Rabs_R0 by reflexivity. lra. }
  intros i Hi. split; [|apply K; exact Hi]. intros q Hq. pose proof (proj1 (K i Hi) q Hq) as K1. cbv beta in K1.
  replace (y q + iterate y h st i q - y q) with (iterate y h st i q) in K1 by ring. exact K1.
Qed.

(** One step from x compared with the solution from y. *)
Lemma one_step : has_order st a b P -> exists C, 0 <= C /\ forall y r X x h Z e, 0 <= r -> 0 <= e -> good y r -> 0 <= h <= 1 -> asum * (INR n * M) * h <= 1 / 2 -> e + asum * M * h <= r ->
  flows n df X y r h -> small e (fun i => x i - y i) ->
  (forall i q, (i < st)%nat -> (q < n)%nat -> Z i q = h * Rsum st (fun j => a i j * df [] (fun p => x p + Z j p) q)) ->
  small (e * (1 + 2 * bsum * (INR n * M) * h) + C * h ^ S P) (fun q => x q + h * Rsum st (fun i => b i * df [] (fun p => x p + Z i p) q) - X h q).
Proof.
  intros Hord. destruct (local_error n P M df HM st a b HP Hord) as (C & HC & K). exists C. split; [exact HC|].
  intros y r X x h Z e Hr He Hg Hh Hs Her HX Hx HZ q Hq.
  pose proof (Rmult_le_pos _ _ (asum_pos st a) HM) as HaM.
  destruct (explicit_exists y r h Hg (proj1 Hh)) as (W & HW); [nra|].
  pose proof (explicit_stages_at y x r h Z e He Hg (proj1 Hh) Her Hx HZ) as HZ'.
  specialize (K y r X h W Hr Hg Hh HX HW q Hq).
  pose proof (perturbed y x r h Z W e He Hg (proj1 Hh) Hs Hx HZ' HW) as Kp.
  set (A := fun i => df [] (fun p => x p + Z i p) q). set (B := fun i => df [] (fun p => y p + W i p) q) in * .
  change (Rabs (X h q - (y q + h * Rsum st (fun i => b i * B i))) <= C * h ^ S P) in K.
  cbv beta. change (Rabs (x q + h * Rsum st (fun i => b i * A i) - X h q) <= e * (1 + 2 * bsum * (INR n * M) * h) + C * h ^ S P).
  replace (x q + h * Rsum st (fun i => b i * A i) - X h q) with ((x q - y q) + h * (Rsum st (fun i => b i * (A i - B i))) + - (X h q - (y q + h * Rsum st (fun i => b i * B i)))).
  - eapply Rle_trans; [apply Rabs_triang|]. rewrite Rabs_Ropp. apply Rplus_le_compat; [|exact K]. eapply Rle_trans; [apply Rabs_triang|].
    specialize (Hx q Hq). cbv beta in Hx. rewrite Rabs_mult, (Rabs_pos_eq h) by lra.
    assert (Rabs (Rsum st (fun i => b i * (A i - B i))) <= bsum * (2 * (INR n * M) * e)).
    { apply weighted_bound; [|intros i Hi; apply Kp; assumption]. apply Rmult_le_pos; [|exact He]. apply Rmult_le_pos; [lra|]. apply Rmult_le_pos; [apply pos_INR|exact HM]. }
    assert (h * Rabs (Rsum st (fun i => b i * (A i - B i))) <= h * (bsum * (2 * (INR n * M) * e))) by (apply Rmult_le_compat_l; [lra|assumption]). lra.
  - erewrite (Rsum_ext st (fun i => b i * (A i - B i))); [|intros i _; rewrite Rmult_minus_distr_l; reflexivity]. rewrite Rsum_minus. ring.
Qed.

(** * Many steps *)
Lemma gronwall_step K C h H T e : 0 <= K -> 0 <= C -> 0 <= h <= H -> 0 <= T -> e <= exp (K * T) * T * (C * H ^ P) -> 0 <= e ->
  e * (1 + K * h) + C * h ^ S P <= exp (K * (T + h)) * (T + h) * (C * H ^ P).
Proof.
  intros HK HC Hh HT He He0. assert (Hp : h ^ P <= H ^ P) by (apply pow_incr; exact Hh). assert (0 <= h ^ P) by (apply pow_le; lra).
  assert (HD : 0 <= C * H ^ P) by (apply Rmult_le_pos; lra).
  assert (Hexp1 : 1 + K * h <= exp (K * h)). { destruct (Req_dec (K * h) 0) as [->|Hne]; [rewrite exp_0; lra|]. left. apply exp_ineq1. assert (0 <= K * h) by (apply Rmult_le_pos; lra). lra. }
  assert (Hkh : 0 <= K * h) by (apply Rmult_le_pos; lra). assert (HKT : 0 <= K * T) by (apply Rmult_le_pos; lra).
  assert (E1 : 1 <= exp (K * (T + h))). { pose proof (exp_ineq1_le (K * (T + h))). assert (0 <= K * (T + h)) by (apply Rmult_le_pos; lra). lra. }
  rewrite (Rmult_comm (exp _) (T + h)), Rmult_assoc, Rmult_plus_distr_r. apply Rplus_le_compat.
  - rewrite (Rmult_plus_distr_l K), exp_plus. apply Rle_trans with (exp (K * T) * T * (C * H ^ P) * exp (K * h)); [|right; ring].
    apply Rmult_le_compat; lra.
  - simpl. replace (C * (h * h ^ P)) with (h * (1 * (C * h ^ P))) by ring. apply Rmult_le_compat_l; [lra|]. apply Rmult_le_compat; try lra; [apply Rmult_le_pos; assumption|]. apply Rmult_le_compat_l; assumption.
Qed.

(** Steps of at most H along a solution X on [t0,t1] that is good all along keep a numerical state within a distance of X
    that grows with time like exp(K t) t, and evaluate the right-hand side where it is bounded. *)
Lemma safe_steps t0 t1 r (X : R -> vec) : t0 < t1 -> 0 < r -> has_order st a b P ->
  (forall t, t0 <= t <= t1 -> good (X t) r) -> (forall t q, t0 <= t <= t1 -> (q < n)%nat -> is_derive (fun t => X t q) t (df [] (X t) q)) ->
  exists h0 G (bd : R -> R -> R), 0 < h0 /\ 0 <= G /\ (forall H, bd H t0 = 0) /\
  (forall H t, 0 <= H <= h0 -> t0 <= t <= t1 -> 0 <= bd H t <= G * H ^ P) /\
  forall H t x h Z, 0 <= h <= H -> H <= h0 -> t0 <= t -> t + h <= t1 -> small (bd H t) (fun q => x q - X t q) ->
  (forall i q, (i < st)%nat -> (q < n)%nat -> Z i q = h * Rsum st (fun j => a i j * df [] (fun p => x p + Z j p) q)) ->
  (forall i q, (i < st)%nat -> (q < n)%nat -> Rabs (df [] (fun p => x p + Z i p) q) <= M) /\
  small (bd H (t + h)) (fun q => x q + h * Rsum st (fun i => b i * df [] (fun p => x p + Z i p) q) - X (t + h) q).
Proof.
  intros Ht Hr Hord Hg HX. destruct (one_step Hord) as (C & HC & K1).
  set (K := 2 * bsum * (INR n * M)). set (G := exp (K * (t1 - t0)) * (t1 - t0) * C).
  pose proof (pos_INR n) as Hn. pose proof (bsum_pos st b) as Hb. pose proof (asum_pos st a) as Ha.
  assert (HK : 0 <= K). { unfold K. apply Rmult_le_pos; [lra|]. apply Rmult_le_pos; assumption. }
  assert (HG : 0 <= G). { unfold G. apply Rmult_le_pos; [|exact HC]. apply Rmult_le_pos; [left; apply exp_pos|lra]. }
  set (D0 := 1 + 2 * (asum * (INR n * M)) + 2 * (asum * M + M + G) / r).
  assert (Hq : 0 <= (asum * M + M + G) / r). { apply Rmult_le_pos; [|left; apply Rinv_0_lt_compat; exact Hr]. pose proof (Rmult_le_pos _ _ Ha HM). lra. }
  assert (Hq2 : 0 <= asum * (INR n * M)). { apply Rmult_le_pos; [exact Ha|apply Rmult_le_pos; assumption]. }
  assert (HD0 : 1 <= D0) by (unfold D0; lra).
  exists (/ D0), G, (fun H t => exp (K * (t - t0)) * (t - t0) * (C * H ^ P)). split; [apply Rinv_0_lt_compat; lra|]. split; [exact HG|].
  split; [intros H; rewrite (Rminus_diag_eq t0 t0) by reflexivity; ring|].
  assert (Hbd : forall H t, 0 <= H <= / D0 -> t0 <= t <= t1 -> 0 <= exp (K * (t - t0)) * (t - t0) * (C * H ^ P) <= G * H ^ P).
  { intros H t HH Htt. assert (HHP : 0 <= H ^ P) by (apply pow_le; lra). split.
    - apply Rmult_le_pos; [apply Rmult_le_pos; [left; apply exp_pos|lra]|apply Rmult_le_pos; assumption].
    - unfold G. rewrite <- !Rmult_assoc. apply Rmult_le_compat_r; [exact HHP|]. apply Rmult_le_compat_r; [exact HC|].
      apply Rmult_le_compat; [left; apply exp_pos|lra|apply exp_mono; apply Rmult_le_compat_l; lra|lra]. }
  split; [exact Hbd|]. intros H t x h Z Hh HH Htt Hth IH HZ.
  assert (Hh0 : forall h, 0 <= h <= H -> h <= 1 /\ asum * (INR n * M) * h <= 1 / 2 /\ (asum * M + M + G) * h <= r / 2).
  { clear h Hh HZ Hth. intros h Hh. assert (Hd : h * D0 <= 1). { apply Rle_trans with (/ D0 * D0); [apply Rmult_le_compat_r; lra|]. right. field. lra. }
    unfold D0 in Hd. assert (Hx : 0 <= h * (2 * (asum * M + M + G) / r)) by (apply Rmult_le_pos; [lra|]; unfold Rdiv in * ; lra).
    assert (Hy : 0 <= h * (2 * (asum * (INR n * M)))) by (apply Rmult_le_pos; lra). rewrite !Rmult_plus_distr_l in Hd. split; [lra|]. split; [lra|].
    assert (Hz : h * (2 * (asum * M + M + G) / r) <= 1) by lra. apply (Rmult_le_compat_r (r / 2)) in Hz; [|lra]. 
    replace (h * (2 * (asum * M + M + G) / r) * (r / 2)) with ((asum * M + M + G) * h) in Hz by (field; lra). lra. }
  destruct (Hh0 h Hh) as (F1 & F2 & F3). destruct (Hh0 H ltac:(lra)) as (F1' & F2' & F3').
  pose proof (Hbd H t ltac:(lra) ltac:(lra)) as (He0 & Heb). set (e := exp (K * (t - t0)) * (t - t0) * (C * H ^ P)) in * .
  assert (Heb' : e <= G * H).
  { eapply Rle_trans; [exact Heb|]. apply Rmult_le_compat_l; [exact HG|]. rewrite <- (pow_1 H) at 2. apply pow_small; [lra|exact HP]. }
  assert (HGH : 0 <= G * H) by (apply Rmult_le_pos; lra). assert (HGh : 0 <= G * h) by (apply Rmult_le_pos; lra).
  pose proof (Rmult_le_pos _ _ Ha HM) as HaM. assert (HaMh : 0 <= asum * M * h) by (apply Rmult_le_pos; lra). assert (HMh : 0 <= M * h) by (apply Rmult_le_pos; lra).
  assert (HaMH : 0 <= asum * M * H) by (apply Rmult_le_pos; lra). assert (HMH : 0 <= M * H) by (apply Rmult_le_pos; lra).
  rewrite !Rmult_plus_distr_r in F3, F3'.
  assert (HF : flows n df (fun s => X (t + s)) (X t) r h).
  { split; [rewrite Rplus_0_r; reflexivity|]. split.
    - intros s p Hs Hp. pose proof (HX (t + s) p ltac:(lra) Hp) as Hd. 
      apply (is_derive_comp (fun t => X t p) (fun s => t + s) s (df [] (X (t + s)) p) 1) in Hd; [|auto_derive; [exact I|ring]].
      unfold scal in Hd. simpl in Hd. unfold mult in Hd. simpl in Hd. rewrite Rmult_1_l in Hd. exact Hd.
    - intros s Hs p Hp. replace (X t p) with (X (t + 0) p) by (rewrite Rplus_0_r; reflexivity).
      eapply Rle_trans; [apply (growth (fun s => X (t + s) p) (fun s => df [] (X (t + s)) p) s M (proj1 Hs))|].
      + intros u Hu. pose proof (HX (t + u) p ltac:(lra) Hp) as Hd.
        apply (is_derive_comp (fun t => X t p) (fun s => t + s) u (df [] (X (t + u)) p) 1) in Hd; [|auto_derive; [exact I|ring]].
        unfold scal in Hd. simpl in Hd. unfold mult in Hd. simpl in Hd. rewrite Rmult_1_l in Hd. exact Hd.
      + intros u Hu. apply (proj1 (Hg (t + u) ltac:(lra))); [simpl; lia|exact Hp|]. intros i _. rewrite Rminus_diag_eq, Rabs_R0 by reflexivity. lra.
      + apply Rle_trans with (M * h); [apply Rmult_le_compat_l; lra|]. lra. }
  pose proof (Hg t ltac:(lra)) as Hgt. split.
  - pose proof (explicit_stages_at (X t) x r h Z e He0 Hgt ltac:(lra) ltac:(lra) IH HZ) as Hst.
    intros i q Hi Hq'. apply (proj1 Hgt); [simpl; lia|exact Hq'|]. apply (proj1 (Hst i Hi)).
  - intros q Hq'. pose proof (K1 (X t) r (fun s => X (t + s)) x h Z e ltac:(lra) He0 Hgt ltac:(lra) F2 ltac:(lra) HF IH HZ q Hq') as E.
    eapply Rle_trans; [exact E|]. fold K. replace (t + h - t0) with ((t - t0) + h) by ring.
    apply (gronwall_step K C h H (t - t0) e HK HC Hh ltac:(lra)); [unfold e; lra|exact He0].
Qed.

(** A numerical trajectory along a solution X on [t0,t1] that is good all along. *)
Lemma many_steps t0 t1 r (X : R -> vec) : t0 < t1 -> 0 < r -> has_order st a b P ->
  (forall t, t0 <= t <= t1 -> good (X t) r) -> (forall t q, t0 <= t <= t1 -> (q < n)%nat -> is_derive (fun t => X t q) t (df [] (X t) q)) ->
  exists h0 C, 0 < h0 /\ 0 <= C /\ forall N (tk : nat -> R) (xk : nat -> vec) (Z : nat -> nat -> vec) H, 0 <= H <= h0 -> tk O = t0 -> (forall k, (k < N)%nat -> t0 <= tk k <= t1) ->
  (forall k, (S k < N)%nat -> 0 <= tk (S k) - tk k <= H) -> (forall q, (q < n)%nat -> xk O q = X t0 q) ->
  (forall k, (S k < N)%nat -> let h := tk (S k) - tk k in
     (forall i q, (i < st)%nat -> (q < n)%nat -> Z k i q = h * Rsum st (fun j => a i j * df [] (fun p => xk k p + Z k j p) q)) /\
     (forall q, (q < n)%nat -> xk (S k) q = xk k q + h * Rsum st (fun i => b i * df [] (fun p => xk k p + Z k i p) q))) ->
  forall k, (k < N)%nat -> small (C * H ^ P) (fun q => xk k q - X (tk k) q).
Proof.
  intros Ht Hr Hord Hg HX. destruct (safe_steps t0 t1 r X Ht Hr Hord Hg HX) as (h0 & G & bd & Hh0 & HG & B0 & Bb & K).
  exists h0, G. split; [exact Hh0|]. split; [exact HG|]. intros N tk xk Z H HH Htk0 Htk Hst Hx0 Hsteps.
  assert (Hall : forall k, (k < N)%nat -> small (bd H (tk k)) (fun q => xk k q - X (tk k) q)).
  { induction k as [|k IH]; intros Hk q Hq'.
    - rewrite Htk0, Hx0, B0 by exact Hq'. rewrite Rminus_diag_eq, Rabs_R0 by reflexivity. lra.
    - specialize (IH ltac:(lia)). destruct (Hsteps k Hk) as (HZ & Hxs). pose proof (Htk k ltac:(lia)) as Htk1. pose proof (Htk (S k) Hk) as Htk2.
      destruct (K H (tk k) (xk k) (tk (S k) - tk k) (Z k) (Hst k Hk) (proj2 HH) ltac:(lra) ltac:(lra) IH HZ) as (_ & E).
      specialize (E q Hq'). cbv beta in E. rewrite <- Hxs in E by exact Hq'. replace (tk k + (tk (S k) - tk k)) with (tk (S k)) in E by ring. exact E. }
  intros k Hk q Hq'. eapply Rle_trans; [apply Hall; assumption|]. apply (Bb H (tk k) HH (Htk k Hk)).
Qed.
End Step.
