(** Adams-Bashforth runs on decaying components: decay below the stability limit, growth above it (C137). *)
From Coq Require Import Reals Lra.
From Verif Require Import Model.Base Model.Scalar Model.LinAlg Model.Enums Model.Options Model.Irk Model.Multistep.
From Verif Require Import Spec.Sums Spec.Observe Spec.MultistepSpec Spec.AbStabilitySpec.
From Verif Require Import Proofs.SumsProofs Proofs.AbCovariance.
Local Open Scope R_scope.

Lemma seven c1 c2 c3 c4 c5 c6 c7 x1 x2 x3 x4 x5 x6 x7 B : Rabs x1 <= B -> Rabs x2 <= B -> Rabs x3 <= B -> Rabs x4 <= B -> Rabs x5 <= B -> Rabs x6 <= B -> Rabs x7 <= B ->
  Rabs (c1 * x1 - c2 * x2 - c3 * x3 - c4 * x4 - c5 * x5 - c6 * x6 - c7 * x7) <= (Rabs c1 + Rabs c2 + Rabs c3 + Rabs c4 + Rabs c5 + Rabs c6 + Rabs c7) * B.
Proof.
  intros. assert (A : forall c x, Rabs x <= B -> Rabs (c * x) <= Rabs c * B) by (intros c x Hx; rewrite Rabs_mult; apply Rmult_le_compat_l; [apply Rabs_pos|exact Hx]).
  rewrite !Rmult_plus_distr_r. unfold Rminus.
  do 6 (eapply Rle_trans; [apply Rabs_triang|]; apply Rplus_le_compat; [|rewrite Rabs_Ropp; apply A; assumption]). apply A. assumption.
Qed.

(** ** the five-term recurrence u_{n+5} = u_{n+4} - mu (b0 u_{n+4} + ... + b4 u_n), from five equal values *)
Section Recurrence.
  Variables (b0 b1 b2 b3 b4 mu y0 : R) (u : nat -> R) (M : nat).
  Hypothesis rec : forall n, (n + 5 < M)%nat -> u (n + 5)%nat = u (n + 4)%nat - mu * (b0 * u (n + 4)%nat + b1 * u (n + 3)%nat + b2 * u (n + 2)%nat + b3 * u (n + 1)%nat + b4 * u n).
  Hypothesis start : forall n, (n < 5)%nat -> u n = y0.
  Hypothesis sum1 : b0 + b1 + b2 + b3 + b4 = 1.

  (** multiplied by z^2 + q1 z + q2 *)
  Definition rho (q1 q2 : R) : R :=
    Rabs (1 - mu * b0 - q1) + Rabs (mu * b1 - q1 * (1 - mu * b0) + q2) + Rabs (mu * b2 + q1 * (mu * b1) - q2 * (1 - mu * b0)) + Rabs (mu * b3 + q1 * (mu * b2) + q2 * (mu * b1)) +
    Rabs (mu * b4 + q1 * (mu * b3) + q2 * (mu * b2)) + Rabs (q1 * (mu * b4) + q2 * (mu * b3)) + Rabs (q2 * (mu * b4)).
  Lemma rho_pos q1 q2 : 0 <= rho q1 q2.
  Proof. unfold rho. repeat apply Rplus_le_le_0_compat; apply Rabs_pos. Qed.

  Lemma window q1 q2 B n : (n + 7 < M)%nat -> (forall j, (j < 7)%nat -> Rabs (u (n + j)%nat) <= B) -> Rabs (u (n + 7)%nat) <= rho q1 q2 * B.
  Proof.
    intros Hn HB.
    pose proof (rec n ltac:(lia)) as R0. pose proof (rec (n + 1)%nat ltac:(lia)) as R1. pose proof (rec (n + 2)%nat ltac:(lia)) as R2.
    replace (n + 1 + 5)%nat with (n + 6)%nat in R1 by lia. replace (n + 1 + 4)%nat with (n + 5)%nat in R1 by lia. replace (n + 1 + 3)%nat with (n + 4)%nat in R1 by lia.
    replace (n + 1 + 2)%nat with (n + 3)%nat in R1 by lia. replace (n + 1 + 1)%nat with (n + 2)%nat in R1 by lia.
    replace (n + 2 + 5)%nat with (n + 7)%nat in R2 by lia. replace (n + 2 + 4)%nat with (n + 6)%nat in R2 by lia. replace (n + 2 + 3)%nat with (n + 5)%nat in R2 by lia.
    replace (n + 2 + 2)%nat with (n + 4)%nat in R2 by lia. replace (n + 2 + 1)%nat with (n + 3)%nat in R2 by lia.
    pose proof (HB 0%nat ltac:(lia)) as B0. rewrite Nat.add_0_r in B0. pose proof (HB 1%nat ltac:(lia)) as B1. pose proof (HB 2%nat ltac:(lia)) as B2. pose proof (HB 3%nat ltac:(lia)) as B3.
    pose proof (HB 4%nat ltac:(lia)) as B4. pose proof (HB 5%nat ltac:(lia)) as B5. pose proof (HB 6%nat ltac:(lia)) as B6.
    assert (E : u (n + 7)%nat =
      (1 - mu * b0 - q1) * u (n + 6)%nat - (mu * b1 - q1 * (1 - mu * b0) + q2) * u (n + 5)%nat - (mu * b2 + q1 * (mu * b1) - q2 * (1 - mu * b0)) * u (n + 4)%nat - (mu * b3 + q1 * (mu * b2) + q2 * (mu * b1)) * u (n + 3)%nat -
      (mu * b4 + q1 * (mu * b3) + q2 * (mu * b2)) * u (n + 2)%nat - (q1 * (mu * b4) + q2 * (mu * b3)) * u (n + 1)%nat - (q2 * (mu * b4)) * u n).
    { assert (Z0 : q2 * (u (n + 5)%nat - (u (n + 4)%nat - mu * (b0 * u (n + 4)%nat + b1 * u (n + 3)%nat + b2 * u (n + 2)%nat + b3 * u (n + 1)%nat + b4 * u n))) = 0) by (rewrite <- R0; ring).
      assert (Z1 : q1 * (u (n + 6)%nat - (u (n + 5)%nat - mu * (b0 * u (n + 5)%nat + b1 * u (n + 4)%nat + b2 * u (n + 3)%nat + b3 * u (n + 2)%nat + b4 * u (n + 1)%nat))) = 0) by (rewrite <- R1; ring).
      rewrite R2. lra. }
    rewrite E. unfold rho. apply seven; assumption.
  Qed.

  Lemma early : (7 <= M)%nat -> u 5%nat = (1 - mu) * y0 /\ u 6%nat = (1 - 2 * mu + b0 * mu * mu) * y0.
  Proof.
    intros HM. pose proof (rec 0 ltac:(lia)) as R0. pose proof (rec 1 ltac:(lia)) as R1. cbn [Nat.add] in R0, R1. rewrite (start 0), (start 1), (start 2), (start 3), (start 4) in R0 by lia. rewrite (start 1), (start 2), (start 3), (start 4) in R1 by lia.
    assert (E5 : u 5%nat = (1 - mu) * y0) by (rewrite R0; replace b4 with (1 - b0 - b1 - b2 - b3) by lra; ring). split; [exact E5|].
    rewrite R1, E5. replace b4 with (1 - b0 - b1 - b2 - b3) by lra. ring.
  Qed.

  Lemma decay q1 q2 : rho q1 q2 <= 1 -> 0 <= mu <= 2 -> -1 <= 1 - 2 * mu + b0 * mu * mu <= 1 \/ (q1 = 0 /\ q2 = 0) ->
    forall i, (i < M)%nat -> Rabs (u i) <= rho q1 q2 ^ (i / 7) * Rabs y0.
  Proof.
    intros Hr Hm Hb. pose proof (rho_pos q1 q2) as Hp. pose proof (Rabs_pos y0) as Hy.
    assert (Hlow : forall i, (i < M)%nat -> (i < 7)%nat -> Rabs (u i) <= Rabs y0).
    { intros i Hi L. destruct (Nat.lt_ge_cases i 5) as [Hs|Hs]; [rewrite start by exact Hs; lra|].
      assert (E5 : u 5%nat = (1 - mu) * y0).
      { pose proof (rec 0 ltac:(lia)) as R0. cbn [Nat.add] in R0. rewrite (start 0), (start 1), (start 2), (start 3), (start 4) in R0 by lia. rewrite R0. replace b4 with (1 - b0 - b1 - b2 - b3) by lra. ring. }
      assert (A5 : Rabs (u 5%nat) <= Rabs y0). { rewrite E5, Rabs_mult. assert (Rabs (1 - mu) <= 1) by (apply Rabs_le; lra). nra. }
      destruct (Nat.eq_dec i 5) as [->|N5]; [exact A5|]. replace i with 6%nat in * by lia.
      destruct Hb as [Hb|[-> ->]].
      - destruct (early ltac:(lia)) as [_ ->]. rewrite Rabs_mult. assert (Rabs (1 - 2 * mu + b0 * mu * mu) <= 1) by (apply Rabs_le; exact Hb). nra.
      - (* one more application of the plain recurrence *)
        pose proof (rec 1 ltac:(lia)) as R1. cbn [Nat.add] in R1. rewrite (start 1), (start 2), (start 3), (start 4) in R1 by lia.
        assert (E : u 6%nat = (1 - mu * b0 - 0) * u 5%nat - (mu * b1 - 0 * (1 - mu * b0) + 0) * y0 - (mu * b2 + 0 * (mu * b1) - 0 * (1 - mu * b0)) * y0 - (mu * b3 + 0 * (mu * b2) + 0 * (mu * b1)) * y0 -
          (mu * b4 + 0 * (mu * b3) + 0 * (mu * b2)) * y0 - (0 * (mu * b4) + 0 * (mu * b3)) * y0 - (0 * (mu * b4)) * y0) by (rewrite R1; ring).
        apply Rle_trans with (rho 0 0 * Rabs y0); [|pose proof (Rmult_le_compat_r _ _ _ Hy Hr); lra].
        rewrite E. unfold rho. apply seven; try exact A5; lra. }
    assert (Hmono : forall a b, (a <= b)%nat -> rho q1 q2 ^ b <= rho q1 q2 ^ a).
    { intros a b Hab. replace b with (a + (b - a))%nat by lia. rewrite pow_add. pose proof (pow_le (rho q1 q2) a Hp). assert (rho q1 q2 ^ (b - a) <= 1) by (rewrite <- (pow1 (b - a)); apply pow_incr; lra). nra. }
    induction i as [i IH] using lt_wf_ind. intros Hi. destruct (Nat.lt_ge_cases i 7) as [L|L].
    - rewrite (Nat.div_small i 7 L). cbn [pow]. rewrite Rmult_1_l. apply Hlow; assumption.
    - replace i with (i - 7 + 7)%nat by lia. set (m := (i - 7)%nat). replace ((m + 7) / 7)%nat with (S (m / 7)) by (replace (m + 7)%nat with (m + 1 * 7)%nat by lia; rewrite Nat.div_add by lia; lia).
      cbn [pow]. rewrite Rmult_assoc. apply (window q1 q2); [unfold m; lia|]. intros j Hj.
      apply Rle_trans with (rho q1 q2 ^ ((m + j) / 7) * Rabs y0); [apply IH; unfold m; lia|]. apply Rmult_le_compat_r; [exact Hy|]. apply Hmono, Nat.div_le_mono; lia.
  Qed.

  (** ** growth along a root r < -1 of the characteristic polynomial *)
  Section Growth.
    Variable r : R.
    Hypothesis root : r ^ 5 - r ^ 4 + mu * (b0 * r ^ 4 + b1 * r ^ 3 + b2 * r ^ 2 + b3 * r + b4) = 0.
    Hypothesis rneg : r < -1.
    Let q1 := r - (1 - mu * b0).
    Let q2 := r * q1 + mu * b1.
    Let q3 := r * q2 + mu * b2.
    Let q4 := r * q3 + mu * b3.
    Definition size_q : R := 1 + Rabs q1 + Rabs q2 + Rabs q3 + Rabs q4.
    Lemma q5 : r * q4 + mu * b4 = 0.
    Proof. unfold q4, q3, q2, q1. rewrite <- root. ring. Qed.
    Let comb n := u (n + 4)%nat + q1 * u (n + 3)%nat + q2 * u (n + 2)%nat + q3 * u (n + 1)%nat + q4 * u n.
    Lemma comb_step n : (n + 5 < M)%nat -> comb (S n) = r * comb n.
    Proof.
      intros Hn. unfold comb. replace (S n + 4)%nat with (n + 5)%nat by lia. replace (S n + 3)%nat with (n + 4)%nat by lia. replace (S n + 2)%nat with (n + 3)%nat by lia. replace (S n + 1)%nat with (n + 2)%nat by lia.
      replace (S n) with (n + 1)%nat by lia. rewrite (rec n Hn). pose proof q5 as Q5.
      assert (E4 : mu * b4 = - r * q4) by lra. assert (E3 : mu * b3 = q4 - r * q3) by (unfold q4; ring). assert (E2 : mu * b2 = q3 - r * q2) by (unfold q3; ring).
      assert (E1 : mu * b1 = q2 - r * q1) by (unfold q2; ring). assert (E0 : mu * b0 = q1 - r + 1) by (unfold q1; ring).
      replace (mu * (b0 * u (n + 4)%nat + b1 * u (n + 3)%nat + b2 * u (n + 2)%nat + b3 * u (n + 1)%nat + b4 * u n)) with
        (mu * b0 * u (n + 4)%nat + mu * b1 * u (n + 3)%nat + mu * b2 * u (n + 2)%nat + mu * b3 * u (n + 1)%nat + mu * b4 * u n) by ring.
      rewrite E4, E3, E2, E1, E0. clearbody q1 q2 q3 q4. ring.
    Qed.
    Lemma comb_pow n : (n + 4 < M)%nat -> comb n = r ^ n * comb 0.
    Proof. induction n as [|n IH]; intros Hn; [cbn [pow]; lra|]. rewrite comb_step by lia. rewrite IH by lia. cbn [pow]. ring. Qed.
    Lemma comb_0 : (1 - r) * comb 0 = mu * y0.
    Proof.
      unfold comb. cbn [Nat.add]. rewrite !start by lia. pose proof q5 as Q5.
      assert (E : (1 - r) * (1 + q1 + q2 + q3 + q4) = mu * (b0 + b1 + b2 + b3 + b4)).
      { replace (mu * (b0 + b1 + b2 + b3 + b4)) with (mu * b0 + mu * b1 + mu * b2 + mu * b3 + mu * b4) by ring.
        assert (E4 : mu * b4 = - r * q4) by lra. assert (E3 : mu * b3 = q4 - r * q3) by (unfold q4; ring). assert (E2 : mu * b2 = q3 - r * q2) by (unfold q3; ring).
        assert (E1 : mu * b1 = q2 - r * q1) by (unfold q2; ring). assert (E0 : mu * b0 = q1 - r + 1) by (unfold q1; ring). rewrite E4, E3, E2, E1, E0. clearbody q1 q2 q3 q4. ring. }
      rewrite sum1 in E. replace ((1 - r) * (y0 + q1 * y0 + q2 * y0 + q3 * y0 + q4 * y0)) with ((1 - r) * (1 + q1 + q2 + q3 + q4) * y0) by ring. rewrite E. ring.
    Qed.
    Lemma growth n : 0 < mu -> (n + 4 < M)%nat -> exists j, (n <= j < n + 5)%nat /\ mu / (1 - r) / size_q * Rabs r ^ n * Rabs y0 <= Rabs (u j).
    Proof.
      intros Hmu Hn.
      assert (Hs : 0 < size_q) by (unfold size_q; pose proof (Rabs_pos q1); pose proof (Rabs_pos q2); pose proof (Rabs_pos q3); pose proof (Rabs_pos q4); lra).
      set (V := mu / (1 - r) / size_q * Rabs r ^ n * Rabs y0).
      assert (HV : V * size_q = Rabs (comb n)).
      { rewrite comb_pow by exact Hn. rewrite Rabs_mult, <- RPow_abs. replace (comb 0) with (mu / (1 - r) * y0) by (pose proof comb_0; apply (Rmult_eq_reg_l (1 - r)); [rewrite H; field; lra|lra]).
        rewrite (Rabs_mult (mu / (1 - r))), (Rabs_pos_eq (mu / (1 - r))) by (apply Rlt_le, Rdiv_lt_0_compat; lra). unfold V. field. lra. }
      destruct (Rle_dec V (Rabs (u (n + 4)%nat))) as [D|D]; [exists (n + 4)%nat; split; [lia|exact D]|].
      destruct (Rle_dec V (Rabs (u (n + 3)%nat))) as [D3|D3]; [exists (n + 3)%nat; split; [lia|exact D3]|].
      destruct (Rle_dec V (Rabs (u (n + 2)%nat))) as [D2|D2]; [exists (n + 2)%nat; split; [lia|exact D2]|].
      destruct (Rle_dec V (Rabs (u (n + 1)%nat))) as [D1|D1]; [exists (n + 1)%nat; split; [lia|exact D1]|].
      destruct (Rle_dec V (Rabs (u n))) as [D0|D0]; [exists n; split; [lia|exact D0]|]. exfalso.
      assert (HT : Rabs (comb n) <= Rabs (u (n + 4)%nat) + Rabs q1 * Rabs (u (n + 3)%nat) + Rabs q2 * Rabs (u (n + 2)%nat) + Rabs q3 * Rabs (u (n + 1)%nat) + Rabs q4 * Rabs (u n)).
      { unfold comb. do 4 (eapply Rle_trans; [apply Rabs_triang|]; apply Rplus_le_compat; [|rewrite Rabs_mult; lra]). lra. }
      pose proof (Rmult_le_compat_l (Rabs q1) (Rabs (u (n + 3)%nat)) V (Rabs_pos _) ltac:(lra)). pose proof (Rmult_le_compat_l (Rabs q2) (Rabs (u (n + 2)%nat)) V (Rabs_pos _) ltac:(lra)).
      pose proof (Rmult_le_compat_l (Rabs q3) (Rabs (u (n + 1)%nat)) V (Rabs_pos _) ltac:(lra)). pose proof (Rmult_le_compat_l (Rabs q4) (Rabs (u n)) V (Rabs_pos _) ltac:(lra)).
      unfold size_q in HV. lra.
    Qed.
  End Growth.
End Recurrence.

(** ** the recurrence of a run, padded to five terms *)
Definition pad (k : nat) (ys : list (list R)) (q n : nat) : R := ventry (yval ys (n - (5 - k))) q.
Lemma run_recurrence (LA : LinAlg R) (HE : Env R) (St : Type) (F : functor R St) f fuel t0 t1 y0 order dt w w' sol q lam :
  computes F f -> t0 < t1 -> (order <= 5)%Z -> adams_bashforth fuel F t0 t1 y0 order dt w = (w', Ok sol) -> decaying_component (length y0) q lam f ->
  let mu := lam * Rmin dt (t1 - t0) in let k := Z.to_nat order in let N := length (bo_t_vals sol) in let u := pad k (bo_y_vals sol) q in
  (1 <= k <= 5)%nat /\ length (bo_y_vals sol) = N /\
  (forall n, (n + 5 < N + (5 - k))%nat -> u (n + 5)%nat = u (n + 4)%nat - mu * (ab_weight k 0 * u (n + 4)%nat + ab_weight k 1 * u (n + 3)%nat + ab_weight k 2 * u (n + 2)%nat + ab_weight k 3 * u (n + 1)%nat + ab_weight k 4 * u n)) /\
  (forall n, (n < 5)%nat -> u n = ventry y0 q) /\ ab_weight k 0 + ab_weight k 1 + ab_weight k 2 + ab_weight k 3 + ab_weight k 4 = 1.
Proof.
  intros HF Ht Ho E [Hq Hd] mu k N u.
  destruct (@ab_facts LA HE St F f _ _ _ _ _ _ _ _ _ HF Ht Ho E) as (Hh & Hk & HkN & HY & _ & _ & _ & Hlen & Hst & Hstep).
  fold k N in Hk, HkN, HY, Hlen, Hst, Hstep. set (h := Rmin dt (t1 - t0)) in * . set (ys := bo_y_vals sol) in * .
  split; [exact Hk|]. split; [exact HY|]. split; [|split].
  - intros n Hn. destruct (Hstep (n + k)%nat ltac:(lia)) as [_ S]. specialize (S q Hq). unfold u, pad.
    rewrite (Rsum_ext k _ (fun j => ab_weight k j * (- lam * ventry (yval ys (n + k - 1 - j)) q))) in S by (intros j Hj; rewrite Hd by (apply Hlen; lia); reflexivity).
    clear Hst Hlen Hstep HY. clearbody k.
    assert (Hc : (k = 1 \/ k = 2 \/ k = 3 \/ k = 4 \/ k = 5)%nat) by lia.
    destruct Hc as [-> | [-> | [-> | [-> | ->]]]]; unfold mu, ab_weight, ab_table in * ; cbn [nth Nat.sub Rsum] in * ;
      repeat match goal with |- context [yval ys ?x] => match x with (n + _ - _)%nat => first [progress replace x with n by lia | progress replace x with (n + 1)%nat by lia | progress replace x with (n + 2)%nat by lia | progress replace x with (n + 3)%nat by lia | progress replace x with (n + 4)%nat by lia | progress replace x with (n + 5)%nat by lia] end end;
      repeat match type of S with context [yval ys ?x] => match x with (n + _ - _)%nat => first [progress replace x with n in S by lia | progress replace x with (n + 1)%nat in S by lia | progress replace x with (n + 2)%nat in S by lia | progress replace x with (n + 3)%nat in S by lia | progress replace x with (n + 4)%nat in S by lia | progress replace x with (n + 5)%nat in S by lia]
        | (n + _ - _ - _)%nat => first [progress replace x with n in S by lia | progress replace x with (n + 1)%nat in S by lia | progress replace x with (n + 2)%nat in S by lia | progress replace x with (n + 3)%nat in S by lia | progress replace x with (n + 4)%nat in S by lia] end end;
      rewrite ?Nat.sub_0_r in S; rewrite ?Nat.sub_0_r; rewrite S; field.
  - intros n Hn. unfold u, pad. rewrite Hst by lia. reflexivity.
  - clearbody k. assert (Hc : (k = 1 \/ k = 2 \/ k = 3 \/ k = 4 \/ k = 5)%nat) by lia. destruct Hc as [-> | [-> | [-> | [-> | ->]]]]; unfold ab_weight, ab_table; cbn [nth Nat.sub]; lra.
Qed.

(** ** below the limits *)
Definition mul1 (k : nat) : R := nth (k - 1) [0; 0; 0; 1/2; 3/5] 0.
Definition mul2 (k : nat) : R := nth (k - 1) [0; 0; 0; 1/4; 1/5] 0.
Definition rate (k : nat) (mu : R) : R := rho (ab_weight k 0) (ab_weight k 1) (ab_weight k 2) (ab_weight k 3) (ab_weight k 4) mu (mul1 k) (mul2 k).
Lemma rate_bound k mu : (1 <= k <= 5)%nat -> 0 <= mu <= ab_limit k -> rate k mu <= 1 /\ (0 < mu < ab_limit k -> rate k mu < 1).
Proof.
  intros Hk. assert (Hc : (k = 1 \/ k = 2 \/ k = 3 \/ k = 4 \/ k = 5)%nat) by lia.
  destruct Hc as [-> | [-> | [-> | [-> | ->]]]]; unfold rate, rho, mul1, mul2, ab_limit, ab_weight, ab_table; cbn [nth Nat.sub]; intros Hm;
    unfold Rabs; repeat match goal with |- context [Rcase_abs ?x] => destruct (Rcase_abs x) end; split; intros; lra.
Qed.
Lemma early_bound k mu : (1 <= k <= 5)%nat -> 0 <= mu <= ab_limit k -> 0 <= mu <= 2 /\ (-1 <= 1 - 2 * mu + ab_weight k 0 * mu * mu <= 1 \/ (mul1 k = 0 /\ mul2 k = 0)).
Proof.
  intros Hk. assert (Hc : (k = 1 \/ k = 2 \/ k = 3 \/ k = 4 \/ k = 5)%nat) by lia.
  destruct Hc as [-> | [-> | [-> | [-> | ->]]]]; unfold mul1, mul2, ab_limit, ab_weight, ab_table; cbn [nth Nat.sub]; intros Hm; (split; [lra|]); first [right; split; reflexivity|left; split; nra].
Qed.
Lemma ab_decays k mu : (1 <= k <= 5)%nat -> 0 <= mu <= ab_limit k -> exists r, 0 <= r <= 1 /\ (0 < mu < ab_limit k -> r < 1) /\
  forall (LA : LinAlg R) (HE : Env R) (St : Type) (F : functor R St) f t0 t1 dt lam q fuel y0 w w' sol,
  computes F f -> decaying_component (length y0) q lam f -> t0 < t1 -> lam * Rmin dt (t1 - t0) = mu ->
  adams_bashforth fuel F t0 t1 y0 (Z.of_nat k) dt w = (w', Ok sol) ->
  forall i, (i < length (bo_t_vals sol))%nat -> Rabs (ventry (nth i (bo_y_vals sol) []) q) <= r ^ (i / 7) * Rabs (ventry y0 q).
Proof.
  intros Hk Hm. destruct (rate_bound k mu Hk Hm) as [Hr Hr']. pose proof (rho_pos (ab_weight k 0) (ab_weight k 1) (ab_weight k 2) (ab_weight k 3) (ab_weight k 4) mu (mul1 k) (mul2 k)) as Hp. fold (rate k mu) in Hp.
  exists (rate k mu). split; [split; assumption|]. split; [exact Hr'|].
  intros LA HE St F f t0 t1 dt lam q fuel y0 w w' sol HF Hd Ht Hmu E i Hi.
  destruct (run_recurrence LA HE St F f fuel t0 t1 y0 (Z.of_nat k) dt w w' sol q lam HF Ht ltac:(lia) E Hd) as (_ & HY & Hrec & Hst & Hs). rewrite Nat2Z.id, Hmu in * .
  destruct (early_bound k mu Hk Hm) as [Hm2 He].
  pose proof (decay _ _ _ _ _ mu _ _ _ Hrec Hst Hs (mul1 k) (mul2 k) Hr Hm2 He (i + (5 - k))%nat ltac:(lia)) as D.
  fold (rate k mu) in D. unfold pad in D. replace (i + (5 - k) - (5 - k))%nat with i in D by lia. unfold yval in D.
  eapply Rle_trans; [exact D|]. apply Rmult_le_compat_r; [apply Rabs_pos|].
  assert (Hab : (i / 7 <= (i + (5 - k)) / 7)%nat) by (apply Nat.div_le_mono; lia).
  replace ((i + (5 - k)) / 7)%nat with (i / 7 + ((i + (5 - k)) / 7 - i / 7))%nat by lia. set (d := ((i + (5 - k)) / 7 - i / 7)%nat). rewrite pow_add.
  pose proof (pow_le (rate k mu) (i / 7) Hp). assert (rate k mu ^ d <= 1) by (rewrite <- (pow1 d); apply pow_incr; lra). nra.
Qed.

(** ** above the limits *)
Definition char (k : nat) (mu x : R) : R := x ^ 5 + x ^ 4 - mu * (ab_weight k 0 * x ^ 4 - ab_weight k 1 * x ^ 3 + ab_weight k 2 * x ^ 2 - ab_weight k 3 * x + ab_weight k 4).
Lemma char_root k mu : (1 <= k <= 5)%nat -> ab_limit k < mu -> exists x, 1 < x /\ char k mu x = 0.
Proof.
  intros Hk Hm.
  assert (H1 : char k mu 1 < 0 /\ 0 < mu).
  { assert (Hc : (k = 1 \/ k = 2 \/ k = 3 \/ k = 4 \/ k = 5)%nat) by lia. unfold char.
    destruct Hc as [-> | [-> | [-> | [-> | ->]]]]; unfold ab_limit, ab_weight, ab_table in * ; cbn [nth Nat.sub] in * ; split; lra. }
  destruct H1 as [H1 Hmu].
  set (B := Rabs (ab_weight k 0) + Rabs (ab_weight k 1) + Rabs (ab_weight k 2) + Rabs (ab_weight k 3) + Rabs (ab_weight k 4)).
  assert (HB : 0 <= B) by (unfold B; repeat apply Rplus_le_le_0_compat; apply Rabs_pos).
  set (X := 2 + mu * B). assert (HX : 2 <= X) by (unfold X; nra).
  assert (H2 : 0 < char k mu X).
  { assert (P : 1 <= X ^ 1 /\ X ^ 1 <= X ^ 2 /\ X ^ 2 <= X ^ 3 /\ X ^ 3 <= X ^ 4) by (repeat split; simpl; nra).
    assert (T : forall c j, (j <= 4)%nat -> - Rabs c * X ^ 4 <= c * X ^ j <= Rabs c * X ^ 4).
    { intros c j Hj. assert (0 <= X ^ j <= X ^ 4) by (split; [apply pow_le; lra|apply Rle_pow; [lra|lia]]). pose proof (Rle_abs c). pose proof (Rle_abs (- c)). rewrite Rabs_Ropp in * . pose proof (Rabs_pos c). split; nra. }
    pose proof (T (ab_weight k 0) 4%nat ltac:(lia)) as T0. pose proof (T (ab_weight k 1) 3%nat ltac:(lia)) as T1. pose proof (T (ab_weight k 2) 2%nat ltac:(lia)) as T2. pose proof (T (ab_weight k 3) 1%nat ltac:(lia)) as T3. pose proof (T (ab_weight k 4) 0%nat ltac:(lia)) as T4.
    rewrite pow_1 in T3. rewrite pow_O, Rmult_1_r in T4.
    set (S := ab_weight k 0 * X ^ 4 - ab_weight k 1 * X ^ 3 + ab_weight k 2 * X ^ 2 - ab_weight k 3 * X + ab_weight k 4).
    assert (HS : S <= B * X ^ 4) by (unfold S, B; rewrite !Rmult_plus_distr_r; lra).
    unfold char. fold S. assert (0 < X ^ 4) by (apply pow_lt; lra). pose proof (Rmult_le_compat_l mu _ _ (Rlt_le _ _ Hmu) HS).
    replace (X ^ 5) with (X * X ^ 4) by (simpl; ring). assert (X * X ^ 4 = 2 * X ^ 4 + mu * (B * X ^ 4)) by (unfold X at 1; ring). lra. }
  assert (HC : continuity (char k mu)) by (unfold char; reg).
  destruct (IVT (char k mu) 1 X HC ltac:(lra) H1 H2) as (z & [Hz _] & Ez). exists z. split; [|exact Ez]. destruct Hz as [Hz|<-]; [exact Hz|lra].
Qed.
Lemma ab_grows k mu : (1 <= k <= 5)%nat -> ab_limit k < mu -> exists r c, 1 < r /\ 0 < c /\
  forall (LA : LinAlg R) (HE : Env R) (St : Type) (F : functor R St) f t0 t1 dt lam q fuel y0 w w' sol,
  computes F f -> decaying_component (length y0) q lam f -> t0 < t1 -> lam * Rmin dt (t1 - t0) = mu ->
  adams_bashforth fuel F t0 t1 y0 (Z.of_nat k) dt w = (w', Ok sol) ->
  forall i, (i + 5 <= length (bo_t_vals sol))%nat -> exists j, (i <= j < i + 5)%nat /\ c * r ^ i * Rabs (ventry y0 q) <= Rabs (ventry (nth j (bo_y_vals sol) []) q).
Proof.
  intros Hk Hm. destruct (char_root k mu Hk Hm) as (x & Hx & Ex).
  assert (Hmu : 0 < mu). { assert (Hc : (k = 1 \/ k = 2 \/ k = 3 \/ k = 4 \/ k = 5)%nat) by lia. destruct Hc as [-> | [-> | [-> | [-> | ->]]]]; unfold ab_limit in Hm; cbn [nth Nat.sub] in Hm; lra. }
  set (sz := size_q (ab_weight k 0) (ab_weight k 1) (ab_weight k 2) (ab_weight k 3) mu (- x)).
  assert (Hsz : 0 < sz). { unfold sz, size_q. repeat match goal with |- context [Rabs ?a] => lazymatch goal with H : 0 <= Rabs a |- _ => fail | _ => pose proof (Rabs_pos a) end end. lra. }
  exists x, (mu / (1 - - x) / sz). split; [exact Hx|]. split; [repeat apply Rdiv_lt_0_compat; lra|].
  intros LA HE St F f t0 t1 dt lam q fuel y0 w w' sol HF Hd Ht Emu E i Hi.
  destruct (run_recurrence LA HE St F f fuel t0 t1 y0 (Z.of_nat k) dt w w' sol q lam HF Ht ltac:(lia) E Hd) as (_ & HY & Hrec & Hst & Hs). rewrite Nat2Z.id, Emu in * .
  assert (Hroot : (- x) ^ 5 - (- x) ^ 4 + mu * (ab_weight k 0 * (- x) ^ 4 + ab_weight k 1 * (- x) ^ 3 + ab_weight k 2 * (- x) ^ 2 + ab_weight k 3 * (- x) + ab_weight k 4) = 0).
  { unfold char in Ex. rewrite <- Ropp_0, <- Ex. ring. }
  destruct (growth _ _ _ _ _ mu _ _ _ Hrec Hst Hs (- x) Hroot ltac:(lra) (i + (5 - k))%nat Hmu ltac:(lia)) as (j & Hj & G).
  fold sz in G. exists (j - (5 - k))%nat. split; [lia|]. unfold pad, yval in G. eapply Rle_trans; [|exact G].
  apply Rmult_le_compat_r; [apply Rabs_pos|]. apply Rmult_le_compat_l; [apply Rlt_le; repeat apply Rdiv_lt_0_compat; lra|].
  rewrite Rabs_Ropp, Rabs_pos_eq by lra. apply Rle_pow; [lra|lia].
Qed.
