(** BDF runs of every order on decaying components (C138). *)
From Coq Require Import Reals Lra.
From Verif Require Import Model.Base Model.Scalar Model.LinAlg Model.Newton Model.Enums Model.Options Model.Irk Model.Multistep.
From Verif Require Import Spec.Sums Spec.Observe Spec.NewtonSpec Spec.IrkSpec Spec.MultistepSpec Spec.BdfLinearSpec Spec.AbStabilitySpec.
From Verif Require Import Proofs.SumsProofs Proofs.BdfLinear.
Local Open Scope R_scope.

Lemma ten c1 c2 c3 c4 c5 c6 c7 c8 c9 c10 x1 x2 x3 x4 x5 x6 x7 x8 x9 x10 B :
  Rabs x1 <= B -> Rabs x2 <= B -> Rabs x3 <= B -> Rabs x4 <= B -> Rabs x5 <= B -> Rabs x6 <= B -> Rabs x7 <= B -> Rabs x8 <= B -> Rabs x9 <= B -> Rabs x10 <= B ->
  Rabs (c1 * x1 + c2 * x2 + c3 * x3 + c4 * x4 + c5 * x5 + c6 * x6 + c7 * x7 + c8 * x8 + c9 * x9 + c10 * x10) <=
  (Rabs c1 + Rabs c2 + Rabs c3 + Rabs c4 + Rabs c5 + Rabs c6 + Rabs c7 + Rabs c8 + Rabs c9 + Rabs c10) * B.
Proof.
  intros. assert (A : forall c x, Rabs x <= B -> Rabs (c * x) <= Rabs c * B) by (intros c x Hx; rewrite Rabs_mult; apply Rmult_le_compat_l; [apply Rabs_pos|exact Hx]).
  rewrite !Rmult_plus_distr_r. do 9 (eapply Rle_trans; [apply Rabs_triang|]; apply Rplus_le_compat; [|apply A; assumption]). apply A. assumption.
Qed.

(** ** the six-term recurrence a u_{n+6} + w0 u_{n+5} + ... + w5 u_n = 0, from six equal values *)
Section Recurrence.
  Variables (w0 w1 w2 w3 w4 w5 a y0 : R) (u : nat -> R) (M : nat).
  Hypothesis Ha : 1 <= a.
  Hypothesis rec : forall n, (n + 6 < M)%nat -> a * u (n + 6)%nat + w0 * u (n + 5)%nat + w1 * u (n + 4)%nat + w2 * u (n + 3)%nat + w3 * u (n + 2)%nat + w4 * u (n + 1)%nat + w5 * u n = 0.
  Hypothesis start : forall n, (n < 6)%nat -> u n = y0.
  Hypothesis Hw : Rabs w0 + Rabs w1 + Rabs w2 + Rabs w3 + Rabs w4 + Rabs w5 <= 11.

  (** multiplied by z^4 + q1 z^3 + q2 z^2 + q3 z + q4 *)
  Definition mass (q1 q2 q3 q4 : R) : R :=
    Rabs (w0 + q1 * a) + Rabs (w1 + q1 * w0 + q2 * a) + Rabs (w2 + q1 * w1 + q2 * w0 + q3 * a) + Rabs (w3 + q1 * w2 + q2 * w1 + q3 * w0 + q4 * a) + Rabs (w4 + q1 * w3 + q2 * w2 + q3 * w1 + q4 * w0) +
    Rabs (w5 + q1 * w4 + q2 * w3 + q3 * w2 + q4 * w1) + Rabs (q1 * w5 + q2 * w4 + q3 * w3 + q4 * w2) + Rabs (q2 * w5 + q3 * w4 + q4 * w3) + Rabs (q3 * w5 + q4 * w4) + Rabs (q4 * w5).
  Lemma mass_pos q1 q2 q3 q4 : 0 <= mass q1 q2 q3 q4.
  Proof. unfold mass. repeat apply Rplus_le_le_0_compat; apply Rabs_pos. Qed.

  Lemma window q1 q2 q3 q4 B n : (n + 10 < M)%nat -> (forall j, (j < 10)%nat -> Rabs (u (n + j)%nat) <= B) -> Rabs (u (n + 10)%nat) <= mass q1 q2 q3 q4 / a * B.
  Proof.
    intros Hn HB.
    pose proof (rec n ltac:(lia)) as R0. pose proof (rec (n + 1)%nat ltac:(lia)) as R1. pose proof (rec (n + 2)%nat ltac:(lia)) as R2. pose proof (rec (n + 3)%nat ltac:(lia)) as R3. pose proof (rec (n + 4)%nat ltac:(lia)) as R4.
    rewrite <- !Nat.add_assoc in R1, R2, R3, R4. cbn [Nat.add] in R1, R2, R3, R4.
    pose proof (HB 0%nat ltac:(lia)) as B0. rewrite Nat.add_0_r in B0. pose proof (HB 1%nat ltac:(lia)) as B1. pose proof (HB 2%nat ltac:(lia)) as B2. pose proof (HB 3%nat ltac:(lia)) as B3.
    pose proof (HB 4%nat ltac:(lia)) as B4. pose proof (HB 5%nat ltac:(lia)) as B5. pose proof (HB 6%nat ltac:(lia)) as B6. pose proof (HB 7%nat ltac:(lia)) as B7. pose proof (HB 8%nat ltac:(lia)) as B8. pose proof (HB 9%nat ltac:(lia)) as B9.
    assert (E : a * u (n + 10)%nat = - (
      (w0 + q1 * a) * u (n + 9)%nat + (w1 + q1 * w0 + q2 * a) * u (n + 8)%nat + (w2 + q1 * w1 + q2 * w0 + q3 * a) * u (n + 7)%nat + (w3 + q1 * w2 + q2 * w1 + q3 * w0 + q4 * a) * u (n + 6)%nat +
      (w4 + q1 * w3 + q2 * w2 + q3 * w1 + q4 * w0) * u (n + 5)%nat + (w5 + q1 * w4 + q2 * w3 + q3 * w2 + q4 * w1) * u (n + 4)%nat + (q1 * w5 + q2 * w4 + q3 * w3 + q4 * w2) * u (n + 3)%nat +
      (q2 * w5 + q3 * w4 + q4 * w3) * u (n + 2)%nat + (q3 * w5 + q4 * w4) * u (n + 1)%nat + (q4 * w5) * u n)).
    { apply (f_equal (Rmult q4)) in R0. apply (f_equal (Rmult q3)) in R1. apply (f_equal (Rmult q2)) in R2. apply (f_equal (Rmult q1)) in R3. rewrite Rmult_0_r in R0, R1, R2, R3. lra. }
    assert (A : Rabs (a * u (n + 10)%nat) <= mass q1 q2 q3 q4 * B) by (rewrite E, Rabs_Ropp; unfold mass; apply ten; assumption).
    rewrite Rabs_mult, (Rabs_pos_eq a) in A by lra. apply (Rmult_le_reg_l a); [lra|]. replace (a * (mass q1 q2 q3 q4 / a * B)) with (mass q1 q2 q3 q4 * B) by (field; lra). exact A.
  Qed.
  Lemma crude B n : (n + 6 < M)%nat -> (forall j, (j < 6)%nat -> Rabs (u (n + j)%nat) <= B) -> Rabs (u (n + 6)%nat) <= 11 * B.
  Proof.
    intros Hn HB. pose proof (rec n Hn) as R0.
    pose proof (HB 0%nat ltac:(lia)) as B0. rewrite Nat.add_0_r in B0. pose proof (HB 1%nat ltac:(lia)) as B1. pose proof (HB 2%nat ltac:(lia)) as B2. pose proof (HB 3%nat ltac:(lia)) as B3. pose proof (HB 4%nat ltac:(lia)) as B4. pose proof (HB 5%nat ltac:(lia)) as B5.
    assert (HBp : 0 <= B) by (pose proof (Rabs_pos (u n)); lra).
    assert (E : a * u (n + 6)%nat = - (w0 * u (n + 5)%nat + w1 * u (n + 4)%nat + w2 * u (n + 3)%nat + w3 * u (n + 2)%nat + w4 * u (n + 1)%nat + w5 * u n + 0 * u n + 0 * u n + 0 * u n + 0 * u n)) by lra.
    assert (A : Rabs (a * u (n + 6)%nat) <= 11 * B).
    { rewrite E, Rabs_Ropp. eapply Rle_trans; [apply ten with (B := B); assumption|]. rewrite Rabs_R0. apply Rmult_le_compat_r; lra. }
    rewrite Rabs_mult, (Rabs_pos_eq a) in A by lra. pose proof (Rabs_pos (u (n + 6)%nat)). nra.
  Qed.
  Lemma low n : (n < M)%nat -> (n < 10)%nat -> Rabs (u n) <= 11 ^ 4 * Rabs y0.
  Proof.
    pose proof (Rabs_pos y0) as Hy. intros HM Hn.
    assert (G : forall d n, (n < M)%nat -> (n < 6 + d)%nat -> Rabs (u n) <= 11 ^ d * Rabs y0).
    { clear n HM Hn. induction d as [|d IH]; intros n HM Hn; [rewrite start by lia; cbn [pow]; lra|]. assert (0 < 11 ^ d) by (apply pow_lt; lra).
      destruct (Nat.lt_ge_cases n (6 + d)) as [L|L]; [pose proof (IH n HM L); cbn [pow]; assert (0 <= 11 ^ d * Rabs y0) by (apply Rmult_le_pos; lra); lra|].
      replace n with (n - 6 + 6)%nat by lia. cbn [pow]. rewrite Rmult_assoc. apply crude; [lia|]. intros j Hj. apply IH; lia. }
    apply G; lia.
  Qed.
  Lemma damping q1 q2 q3 q4 : mass q1 q2 q3 q4 <= a -> forall i, (i < M)%nat -> Rabs (u i) <= 11 ^ 4 * ((mass q1 q2 q3 q4 / a) ^ (i / 10) * Rabs y0).
  Proof.
    intros Hr. set (r := mass q1 q2 q3 q4 / a). pose proof (Rabs_pos y0) as Hy.
    assert (Hp : 0 <= r) by (apply Rmult_le_pos; [apply mass_pos|apply Rlt_le, Rinv_0_lt_compat; lra]).
    assert (Hr1 : r <= 1) by (unfold r; apply (Rmult_le_reg_r a); [lra|]; replace (mass q1 q2 q3 q4 / a * a) with (mass q1 q2 q3 q4) by (field; lra); lra).
    assert (Hmono : forall m l, (m <= l)%nat -> r ^ l <= r ^ m).
    { intros m l Hml. replace l with (m + (l - m))%nat by lia. rewrite pow_add. pose proof (pow_le r m Hp). assert (r ^ (l - m) <= 1) by (rewrite <- (pow1 (l - m)); apply pow_incr; lra). nra. }
    induction i as [i IH] using lt_wf_ind. intros Hi. destruct (Nat.lt_ge_cases i 10) as [L|L].
    - rewrite (Nat.div_small i 10 L). cbn [pow]. rewrite Rmult_1_l. apply low; assumption.
    - replace i with (i - 10 + 10)%nat by lia. set (m := (i - 10)%nat). replace ((m + 10) / 10)%nat with (S (m / 10)) by (replace (m + 10)%nat with (m + 1 * 10)%nat by lia; rewrite Nat.div_add by lia; lia).
      change (r ^ S (m / 10)) with (r * r ^ (m / 10)). replace (11 ^ 4 * (r * r ^ (m / 10) * Rabs y0)) with (r * (11 ^ 4 * (r ^ (m / 10) * Rabs y0))) by ring. apply (window q1 q2 q3 q4); [unfold m; lia|]. intros j Hj.
      apply Rle_trans with (11 ^ 4 * (r ^ ((m + j) / 10) * Rabs y0)); [apply IH; unfold m; lia|]. apply Rmult_le_compat_l; [apply pow_le; lra|]. apply Rmult_le_compat_r; [exact Hy|]. apply Hmono, Nat.div_le_mono; lia.
  Qed.
End Recurrence.

(** ** multipliers for every order and step *)
Definition bdf_mass (k : nat) (mu : R) : R -> R -> R -> R -> R := mass (bdf_weight k 0) (bdf_weight k 1) (bdf_weight k 2) (bdf_weight k 3) (bdf_weight k 4) (bdf_weight k 5) (1 + bdf_beta k * mu).
Ltac signs := unfold bdf_mass, mass, bdf_weight, bdf_beta, bdf_table; cbn [nth Nat.sub];
  repeat match goal with |- context [Rabs ?x] => let H := fresh in
    first [assert (H : 0 <= x) by lra; rewrite (Rabs_pos_eq x H); clear H | assert (H : x <= 0) by lra; rewrite (Rabs_left1 x H); clear H | unfold Rabs at 1; destruct (Rcase_abs x)] end; lra.
Lemma multiplier k mu : (1 <= k <= 6)%nat -> 1 / 10 <= mu -> exists q1 q2 q3 q4, bdf_mass k mu q1 q2 q3 q4 < 1 + bdf_beta k * mu.
Proof.
  intros Hk Hm. assert (Hc : (k = 1 \/ k = 2 \/ k = 3 \/ k = 4 \/ k = 5 \/ k = 6)%nat) by lia.
  destruct Hc as [-> | [-> | [-> | [-> | [-> | ->]]]]].
  - exists 0, 0, 0, 0. signs.
  - exists (3/10), (3/50), 0, 0. signs.
  - exists (13/20), (1/4), (1/20), 0. signs.
  - destruct (Rle_dec (7/10) mu); [exists (17/20), (3/20), 0, 0; signs|]. exists (6/5), (7/10), (1/5), 0. signs.
  - destruct (Rle_dec (7/4) mu); [exists (41/50), (1/25), (-7/50), 0; signs|]. exists (71/50), (22/25), (13/50), 0. signs.
  - destruct (Rle_dec (9/2) mu); [exists (9/10), 0, (-1/10), 0; signs|].
    destruct (Rle_dec 3 mu); [exists (26/25), (-7/50), (-37/100), (-11/100); signs|].
    destruct (Rle_dec (5/2) mu); [exists (59/50), (-2/25), (-27/50), (-4/25); signs|].
    destruct (Rle_dec 2 mu); [exists (13/10), (1/10), (-11/20), (-1/5); signs|].
    destruct (Rle_dec (5/4) mu); [exists (149/100), (169/200), (27/200), (-1/25); signs|].
    destruct (Rle_dec (4/5) mu); [exists (169/100), (127/100), (1/2), (7/100); signs|].
    destruct (Rle_dec (3/10) mu); [exists (19/10), (327/200), (163/200), (19/100); signs|].
    exists (101/50), (9/5), (23/25), (11/50). signs.
Qed.

(** ** the recurrence of a run, padded to six terms *)
Definition pad (k : nat) (ys : list (list R)) (q n : nat) : R := ventry (yval ys (n + 1 - (6 - k))) q.
Lemma run_recurrence (LA : LinAlg R) (HP : ExactProducts LA) (HX : ExactSolve LA) (HN : ExactNorm LA) (HE : Env R) (St : Type) (F : functor R St) A g fuel t0 t1 y0 order dt w w' sol q lam :
  affine_problem F (length y0) A g -> t0 < t1 -> (1 <= order <= 6)%Z -> bdf fuel F t0 t1 y0 order dt w = (w', Ok sol) ->
  bdf_solvable (length y0) (Rmin dt (t1 - t0) * bdf_beta (Z.to_nat order)) A -> decaying_component (length y0) q lam (affine_rhs (length y0) A g) ->
  let mu := lam * Rmin dt (t1 - t0) in let k := Z.to_nat order in let N := length (bo_t_vals sol) in let u := pad k (bo_y_vals sol) q in
  bo_status sol = SUCCESS /\ yval (bo_y_vals sol) 0 = y0 /\
  (forall n, (n + k + 1 < N)%nat -> (1 + bdf_beta k * mu) * u (n + 6)%nat + bdf_weight k 0 * u (n + 5)%nat + bdf_weight k 1 * u (n + 4)%nat + bdf_weight k 2 * u (n + 3)%nat + bdf_weight k 3 * u (n + 2)%nat + bdf_weight k 4 * u (n + 1)%nat + bdf_weight k 5 * u n = 0) /\
  (forall n, (n < 6)%nat -> u n = ventry y0 q).
Proof.
  intros HF Ht Ho E Hs [Hq Hd] mu k N u.
  destruct (bdf_facts LA HP HX HN HE St F A g fuel t0 t1 y0 order dt w w' sol HF Ht Ho E Hs) as (Hh & Hk & HkN & HY & _ & Hstat & _ & _ & Hlen & Hst & Hres).
  fold k N in Hk, HkN, HY, Hlen, Hst, Hres. set (h := Rmin dt (t1 - t0)) in * . set (ys := bo_y_vals sol) in * .
  split; [exact Hstat|]. split; [apply Hst; lia|]. split.
  - intros n Hn. assert (Hi : (k < n + k + 1 < N)%nat) by lia. pose proof (Hres (n + k + 1)%nat q Hi Hq) as S. unfold bdf_residual in S. rewrite Hd in S by (apply Hlen; lia). unfold u, pad.
    clear Hst Hlen Hres HY Hs Hi. clearbody k.
    assert (Hc : (k = 1 \/ k = 2 \/ k = 3 \/ k = 4 \/ k = 5 \/ k = 6)%nat) by lia.
    destruct Hc as [-> | [-> | [-> | [-> | [-> | ->]]]]]; unfold mu, bdf_weight, bdf_beta, bdf_table in * ; cbn [nth Nat.sub Rsum] in * ;
      rewrite <- ?Nat.sub_add_distr, <- ?Nat.add_assoc in * ; cbn [Nat.add] in * ;
      repeat match goal with |- context [yval ys (?x - ?c)%nat] => first [progress replace (x - c)%nat with n by lia | progress replace (x - c)%nat with (n + 1)%nat by lia | progress replace (x - c)%nat with (n + 2)%nat by lia | progress replace (x - c)%nat with (n + 3)%nat by lia | progress replace (x - c)%nat with (n + 4)%nat by lia | progress replace (x - c)%nat with (n + 5)%nat by lia | progress replace (x - c)%nat with (n + 6)%nat by lia | progress replace (x - c)%nat with (n + 7)%nat by lia] end;
      repeat match type of S with context [yval ys (?x - ?c)%nat] => first [progress replace (x - c)%nat with n in S by lia | progress replace (x - c)%nat with (n + 1)%nat in S by lia | progress replace (x - c)%nat with (n + 2)%nat in S by lia | progress replace (x - c)%nat with (n + 3)%nat in S by lia | progress replace (x - c)%nat with (n + 4)%nat in S by lia | progress replace (x - c)%nat with (n + 5)%nat in S by lia | progress replace (x - c)%nat with (n + 6)%nat in S by lia] end;
      rewrite ?Nat.sub_0_r in * ; (etransitivity; [|exact S]); field.
  - intros n Hn. unfold u, pad. rewrite Hst by lia. reflexivity.
Qed.
Lemma weights_11 k : (1 <= k <= 6)%nat -> Rabs (bdf_weight k 0) + Rabs (bdf_weight k 1) + Rabs (bdf_weight k 2) + Rabs (bdf_weight k 3) + Rabs (bdf_weight k 4) + Rabs (bdf_weight k 5) <= 11.
Proof. intros Hk. assert (Hc : (k = 1 \/ k = 2 \/ k = 3 \/ k = 4 \/ k = 5 \/ k = 6)%nat) by lia. destruct Hc as [-> | [-> | [-> | [-> | [-> | ->]]]]]; signs. Qed.

Lemma bdf_damps k mu : (1 <= k <= 6)%nat -> 1 / 10 <= mu -> exists r, 0 <= r < 1 /\
  forall (LA : LinAlg R) (HP : ExactProducts LA) (HX : ExactSolve LA) (HN : ExactNorm LA) (HE : Env R) (St : Type) (F : functor R St) A g t0 t1 dt lam q fuel y0 w w' sol,
  affine_problem F (length y0) A g -> decaying_component (length y0) q lam (affine_rhs (length y0) A g) ->
  bdf_solvable (length y0) (Rmin dt (t1 - t0) * bdf_beta k) A -> t0 < t1 -> lam * Rmin dt (t1 - t0) = mu ->
  bdf fuel F t0 t1 y0 (Z.of_nat k) dt w = (w', Ok sol) ->
  bo_status sol = SUCCESS /\
  forall i, (i < length (bo_t_vals sol))%nat -> Rabs (ventry (nth i (bo_y_vals sol) []) q) <= 11 ^ 4 * r ^ (i / 11) * Rabs (ventry y0 q).
Proof.
  intros Hk Hm. destruct (multiplier k mu Hk Hm) as (q1 & q2 & q3 & q4 & Hq). set (a := 1 + bdf_beta k * mu) in * .
  assert (Ha : 1 <= a). { unfold a. assert (0 <= bdf_beta k) by (assert (Hc : (k = 1 \/ k = 2 \/ k = 3 \/ k = 4 \/ k = 5 \/ k = 6)%nat) by lia; destruct Hc as [-> | [-> | [-> | [-> | [-> | ->]]]]]; unfold bdf_beta; cbn [nth Nat.sub]; lra). nra. }
  pose proof (mass_pos (bdf_weight k 0) (bdf_weight k 1) (bdf_weight k 2) (bdf_weight k 3) (bdf_weight k 4) (bdf_weight k 5) a q1 q2 q3 q4) as Hp.
  unfold bdf_mass in Hq. fold a in Hq. set (ms := mass _ _ _ _ _ _ _ _ _ _ _) in * .
  assert (Hr0 : 0 <= ms / a) by (apply Rmult_le_pos; [exact Hp|apply Rlt_le, Rinv_0_lt_compat; lra]).
  assert (Hr1 : ms / a < 1) by (apply (Rmult_lt_reg_r a); [lra|]; replace (ms / a * a) with ms by (field; lra); lra).
  exists (ms / a). split; [split; assumption|].
  intros LA HP HX HN HE St F A g t0 t1 dt lam q fuel y0 w w' sol HF Hd Hs Ht Hmu E.
  rewrite <- (Nat2Z.id k) in Hs.
  destruct (run_recurrence LA HP HX HN HE St F A g fuel t0 t1 y0 (Z.of_nat k) dt w w' sol q lam HF Ht ltac:(lia) E Hs Hd) as (Hst & H0 & Hrec & Hstart). rewrite Nat2Z.id, Hmu in * .
  split; [exact Hst|]. intros i Hi. pose proof (Rabs_pos (ventry y0 q)) as Hy.
  destruct (Nat.eq_dec i 0) as [->|Hi0].
  { unfold yval in H0. rewrite H0. change (0 / 11)%nat with 0%nat. change ((ms / a) ^ 0) with 1. assert (1 <= 11 ^ 4) by (simpl; lra). nra. }
  set (n := (i + 5 - k)%nat). set (M := (length (bo_t_vals sol) + 5 - k)%nat).
  assert (D : Rabs (pad k (bo_y_vals sol) q n) <= 11 ^ 4 * ((ms / a) ^ (n / 10) * Rabs (ventry y0 q))).
  { refine (damping _ _ _ _ _ _ a (ventry y0 q) (pad k (bo_y_vals sol) q) M Ha _ Hstart (weights_11 k Hk) q1 q2 q3 q4 (Rlt_le _ _ Hq) n ltac:(unfold n, M; lia)).
    intros j Hj. apply Hrec. unfold M in Hj. lia. }
  unfold pad, yval in D. replace (n + 1 - (6 - k))%nat with i in D by (unfold n; lia).
  eapply Rle_trans; [exact D|]. rewrite <- Rmult_assoc. apply Rmult_le_compat_r; [exact Hy|]. apply Rmult_le_compat_l; [apply pow_le; lra|].
  assert (Hml : (i / 11 <= n / 10)%nat).
  { apply Nat.div_le_lower_bound; [lia|]. pose proof (Nat.mul_div_le i 11 ltac:(lia)). unfold n. destruct (i / 11)%nat; lia. }
  replace (n / 10)%nat with (i / 11 + (n / 10 - i / 11))%nat by lia. set (d := (n / 10 - i / 11)%nat). rewrite pow_add.
  pose proof (pow_le (ms / a) (i / 11) Hr0). assert ((ms / a) ^ d <= 1) by (rewrite <- (pow1 d); apply pow_incr; lra). nra.
Qed.
