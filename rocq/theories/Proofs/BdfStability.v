(** BDF runs of order 1 and 2 on nonlinear problems whose solutions do not move apart, or not away from a centre (C134). *)
From Coq Require Import Reals Lra.
From Verif Require Import Model.Base Model.Scalar Model.LinAlg Model.Newton Model.Enums Model.Options Model.Irk Model.Multistep.
From Verif Require Import Spec.Sums Spec.Observe Spec.NewtonSpec Spec.IrkSpec Spec.IrkTotalSpec Spec.MultistepSpec Spec.StabilitySpec Spec.BdfStabilitySpec.
From Verif Require Import Proofs.OrderTheory Proofs.SumsProofs Proofs.RVec Proofs.AlgStable Proofs.Coercive Proofs.MultistepProofs Proofs.MultistepResults Proofs.MultistepReal Proofs.MultistepOrders Proofs.ConvergenceBdf.
Local Open Scope R_scope.

Definition nrm (n : nat) (x : nat -> R) : R := sqrt (Rsum n (fun p => x p * x p)).
Lemma nrm_pos n x : 0 <= nrm n x.
Proof. apply sqrt_pos. Qed.
Lemma nrm_sq n x : nrm n x * nrm n x = Rsum n (fun p => x p * x p).
Proof. apply sqrt_sqrt. apply Rsum_nonneg. intros. apply Rle_0_sqr. Qed.
Lemma nrm_cauchy n x y : Rsum n (fun p => x p * y p) <= nrm n x * nrm n y.
Proof.
  pose proof (Rsum_cauchy n x y) as H. rewrite <- !nrm_sq in H. pose proof (nrm_pos n x). pose proof (nrm_pos n y). set (s := Rsum n (fun p => x p * y p)) in * .
  destruct (Rle_dec s (nrm n x * nrm n y)) as [Hs|Hs]; [exact Hs|]. assert (0 <= nrm n x * nrm n y) by (apply Rmult_le_pos; assumption). nra.
Qed.
Lemma nrm_minus n x y : nrm n (fun p => x p - y p) <= nrm n x + nrm n y.
Proof.
  pose proof (nrm_pos n x). pose proof (nrm_pos n y). pose proof (nrm_pos n (fun p => x p - y p)). pose proof (nrm_cauchy n x (fun p => - y p)) as C.
  assert (E : nrm n (fun p => - y p) = nrm n y) by (unfold nrm; f_equal; apply Rsum_ext; intros; ring). rewrite E in C.
  pose proof (nrm_sq n (fun p => x p - y p)) as Q. rewrite (Rsum_ext n _ (fun p => x p * x p + y p * y p + 2 * (x p * - y p))) in Q by (intros; ring).
  rewrite !Rsum_plus, Rsum_scal, <- !nrm_sq in Q. nra.
Qed.
Lemma nrm_scal n c x : 0 <= c -> nrm n (fun p => c * x p) = c * nrm n x.
Proof.
  intros Hc. unfold nrm. rewrite (Rsum_ext n _ (fun p => (c * c) * (x p * x p))) by (intros; ring). rewrite Rsum_scal, sqrt_mult_alt by nra. rewrite sqrt_square by exact Hc. reflexivity.
Qed.
Lemma nrm_ext n x y : (forall p, (p < n)%nat -> x p = y p) -> nrm n x = nrm n y.
Proof. intros H. unfold nrm. f_equal. apply Rsum_ext. intros p Hp. rewrite (H p Hp). reflexivity. Qed.
Lemma nrm_bound n x e : 0 <= e -> (forall p, (p < n)%nat -> Rabs (x p) <= e) -> nrm n x <= sqrt (INR n) * e.
Proof.
  intros He H. rewrite <- (sqrt_square e He) at 1. rewrite <- sqrt_mult_alt by apply pos_INR. apply sqrt_le_1_alt.
  rewrite <- Rsum_const. apply Rsum_le. intros p Hp. specialize (H p Hp). unfold Rabs in H. destruct (Rcase_abs (x p)); nra.
Qed.

(** ** the growth of a sequence that almost solves the BDF equations *)
Section Growth.
  Variables (n k N : nat) (h del : R) (e g : nat -> nat -> R).
  Hypotheses (Hdel : 0 <= del) (Hh : 0 <= h).
  Hypothesis Hg : forall i, (k < i < N)%nat -> Rsum n (fun p => g i p * e i p) <= 0.
  Hypothesis Hr : forall i, (k < i < N)%nat -> nrm n (fun p => e i p + Rsum k (fun j => bdf_weight k j * e (i - 1 - j)%nat p) - h * bdf_beta k * g i p) <= del.
  Hypothesis Hi : forall i p, (i <= k)%nat -> (p < n)%nat -> e i p = e 0%nat p.
  Lemma growth_dot i : (k < i < N)%nat -> 0 <= bdf_beta k -> Rsum n (fun p => (e i p + Rsum k (fun j => bdf_weight k j * e (i - 1 - j)%nat p)) * e i p) <= del * nrm n (e i).
  Proof using Hdel Hg Hh Hr.
    intros Hki Hb. pose proof (Hg i Hki) as G. pose proof (Hr i Hki) as Q. set (rho := fun p => e i p + Rsum k (fun j => bdf_weight k j * e (i - 1 - j)%nat p) - h * bdf_beta k * g i p) in * .
    rewrite (Rsum_ext n _ (fun p => rho p * e i p + h * bdf_beta k * (g i p * e i p))) by (intros; unfold rho; ring). rewrite Rsum_plus, Rsum_scal.
    pose proof (nrm_cauchy n rho (e i)) as C. pose proof (nrm_pos n (e i)). assert (0 <= h * bdf_beta k) by (apply Rmult_le_pos; assumption).
    assert (nrm n rho * nrm n (e i) <= del * nrm n (e i)) by (apply Rmult_le_compat_r; assumption). nra.
  Qed.
  Lemma growth1 : k = 1%nat -> forall i, (1 <= i < N)%nat -> nrm n (e i) <= nrm n (e 0%nat) + INR (i - 1) * del.
  Proof using Hdel Hg Hh Hi Hr.
    intros Hk i [H1 Hi']. induction i as [|i IH]; [lia|]. destruct (Nat.eq_dec i 0) as [->|Hi0].
    - cbn [Nat.sub INR]. rewrite (nrm_ext n (e 1%nat) (e 0%nat)) by (intros p Hp; apply Hi; [lia|exact Hp]). lra.
    - specialize (IH ltac:(lia) ltac:(lia)). replace (S i - 1)%nat with (S (i - 1)) by lia. rewrite S_INR.
      assert (Hb : 0 <= bdf_beta k) by (rewrite Hk; change (bdf_beta 1) with 1; lra).
      pose proof (growth_dot (S i) ltac:(lia) Hb) as D. rewrite (Rsum_ext n _ (fun p => e (S i) p * e (S i) p + (-1) * (e i p * e (S i) p))) in D.
      + rewrite Rsum_plus, Rsum_scal, <- nrm_sq in D. pose proof (nrm_cauchy n (e i) (e (S i))) as C. pose proof (nrm_pos n (e (S i))). pose proof (nrm_pos n (e i)).
        assert (nrm n (e (S i)) <= nrm n (e i) + del) by nra. lra.
      + intros p Hp. rewrite Hk. cbn [Rsum]. replace (S i - 1 - 0)%nat with i by lia. change (bdf_weight 1 0) with (-1). ring.
  Qed.
  Lemma growth2 : k = 2%nat -> forall i, (2 <= i < N)%nat -> nrm n (e i) <= sqrt 2 * nrm n (e 0%nat) + INR (i - 2) * (6 * del).
  Proof using Hdel Hg Hh Hi Hr.
    intros Hk. set (E := fun i => Rsum n (fun p => e i p * e i p) + Rsum n (fun p => (2 * e i p - e (i - 1)%nat p) * (2 * e i p - e (i - 1)%nat p))).
    assert (E0 : forall i, 0 <= E i) by (intros i; unfold E; apply Rplus_le_le_0_compat; apply Rsum_nonneg; intros; apply Rle_0_sqr).
    assert (En : forall i, nrm n (e i) <= sqrt (E i)) by (intros i; apply sqrt_le_1_alt; unfold E; assert (0 <= Rsum n (fun p => (2 * e i p - e (i - 1)%nat p) * (2 * e i p - e (i - 1)%nat p))) by (apply Rsum_nonneg; intros; apply Rle_0_sqr); lra).
    assert (HE : forall i, (2 <= i < N)%nat -> sqrt (E i) <= sqrt 2 * nrm n (e 0%nat) + INR (i - 2) * (6 * del)).
    { intros i [H1 Hi']. induction i as [|i IH]; [lia|]. destruct (Nat.eq_dec i 1) as [->|Hi0].
      - cbn [Nat.sub INR]. unfold E. cbn [Nat.sub]. rewrite (Rsum_ext n (fun p => e 2%nat p * e 2%nat p) (fun p => e 0%nat p * e 0%nat p)) by (intros p Hp; rewrite (Hi 2%nat p) by (lia || exact Hp); ring).
        rewrite (Rsum_ext n (fun p => (2 * e 2%nat p - e 1%nat p) * (2 * e 2%nat p - e 1%nat p)) (fun p => e 0%nat p * e 0%nat p)) by (intros p Hp; rewrite (Hi 2%nat p), (Hi 1%nat p) by (lia || exact Hp); ring).
        unfold nrm. rewrite <- sqrt_mult_alt by lra. right. rewrite Rmult_0_l, Rplus_0_r. f_equal. ring.
      - specialize (IH ltac:(lia) ltac:(lia)). replace (S i - 2)%nat with (S (i - 2)) by lia. rewrite S_INR.
        assert (Hb : 0 <= bdf_beta k) by (rewrite Hk; change (bdf_beta 2) with (2 / 3); lra).
        pose proof (growth_dot (S i) ltac:(lia) Hb) as D.
        assert (C : E (S i) - E i <= 6 * Rsum n (fun p => (e (S i) p + Rsum k (fun j => bdf_weight k j * e (S i - 1 - j)%nat p)) * e (S i) p)).
        { unfold E. rewrite <- !Rsum_plus, <- Rsum_scal, <- Rsum_minus. apply Rsum_le. intros p Hp. rewrite Hk. cbn [Rsum]. replace (S i - 1 - 0)%nat with i by lia. replace (S i - 1 - 1)%nat with (i - 1)%nat by lia.
          replace (S i - 1)%nat with i by lia. change (bdf_weight 2 0) with (-4/3). change (bdf_weight 2 1) with (1/3). pose proof (Rle_0_sqr (e (S i) p - 2 * e i p + e (i - 1)%nat p)) as Q. unfold Rsqr in Q. lra. }
        pose proof (En (S i)) as En'. pose proof (sqrt_sqrt _ (E0 (S i))) as S1. pose proof (sqrt_sqrt _ (E0 i)) as S2. pose proof (sqrt_pos (E (S i))). pose proof (sqrt_pos (E i)).
        set (a := sqrt (E (S i))) in * . set (b := sqrt (E i)) in * . set (m := nrm n (e (S i))) in * .
        assert (del * m <= del * a) by (apply Rmult_le_compat_l; assumption).
        assert (a <= b + 6 * del) by nra. lra. }
    intros i Hi'. eapply Rle_trans; [apply En|apply HE, Hi'].
  Qed.
  Lemma growth12 : (k = 1 \/ k = 2)%nat -> forall i, (i < N)%nat -> nrm n (e i) <= sqrt (INR k) * nrm n (e 0%nat) + INR i * (if Nat.eq_dec k 1 then del else 6 * del).
  Proof using Hdel Hg Hh Hi Hr.
    intros Hk i Hi'. assert (Hd : 0 <= (if Nat.eq_dec k 1 then del else 6 * del)) by (destruct (Nat.eq_dec k 1); lra). pose proof (pos_INR i).
    assert (0 <= INR i * (if Nat.eq_dec k 1 then del else 6 * del)) by (apply Rmult_le_pos; assumption). pose proof (nrm_pos n (e 0%nat)).
    destruct (le_lt_dec i k) as [L|L].
    - rewrite (nrm_ext n (e i) (e 0%nat)) by (intros p Hp; apply Hi; [exact L|exact Hp]). assert (1 <= sqrt (INR k)) by (rewrite <- sqrt_1 at 1; apply sqrt_le_1_alt; destruct Hk as [-> | ->]; cbn; lra). nra.
    - assert (INR (i - k) <= INR i) by (apply le_INR; lia). destruct Hk as [Hk|Hk].
      + pose proof (growth1 Hk i ltac:(lia)) as G. rewrite Hk in * . destruct (Nat.eq_dec 1 1) as [_|X]; [|lia]. cbn [INR]. rewrite sqrt_1. nra.
      + pose proof (growth2 Hk i ltac:(lia)) as G. rewrite Hk in * . destruct (Nat.eq_dec 2 1) as [X|_]; [lia|]. change (INR 2) with 2. nra.
  Qed.
End Growth.

(** ** runs *)
Lemma last_nth_len {A} (l : list A) d : last l d = nth (length l - 1) l d.
Proof. induction l as [|a [|b l'] IH]; [reflexivity|reflexivity|]. change (last (a :: b :: l') d) with (last (b :: l') d). rewrite IH. cbn. rewrite Nat.sub_0_r. reflexivity. Qed.
Section Runs.
  Context {LA : LinAlg R} {HP : ExactProducts LA} {HX : ExactSolve LA} {HN : ExactNorm LA} {HE : Env R} {St : Type}.
  Variables (F : functor R St) (f : R -> list R -> list R) (n : nat) (kappa : R).
  Hypotheses (HF : computes F f) (HJm : jac_matrices F) (Hka : 0 <= kappa) (HJ : jac_error F n f kappa).
  Lemma bdf_defects fuel t0 t1 y0 order dt w w' sol : length y0 = n -> (1 <= order <= 6)%Z -> t0 < t1 -> 0 < dt -> bdf fuel F t0 t1 y0 order dt w = (w', Ok sol) ->
    let h := Rmin dt (t1 - t0) in let k := Z.to_nat order in let ys := bo_y_vals sol in
    length (bo_t_vals sol) = length ys /\ (forall i, (i < length ys)%nat -> nth i (bo_t_vals sol) 0 = t0 + INR i * h) /\
    (forall i, (i < length ys)%nat -> length (yval ys i) = n) /\ (forall i, (i <= k)%nat -> yval ys i = y0) /\
    forall i, (k < i < length ys)%nat -> nrm n (bdf_residual k f (t0 + INR i * h) h ys i (yval ys i)) <= h * bdf_beta k * (kappa * (sqrt (INR n) * (1 / 10000000000))).
  Proof using HF HJm Hka HJ HP HX HN.
    intros Ly Ho Ht Hdt E h k ys. assert (Hh : 0 < h) by (unfold h; apply Rmin_glb_lt; lra). assert (Hb : 0 <= bdf_beta k) by (apply Rlt_le, (bdf_beta_bounds k); unfold k; lia).
    assert (Hhb : 0 <= h * bdf_beta k) by (apply Rmult_le_pos; [lra|exact Hb]).
    assert (Hinv : forall t y J, jac_answers F t y J -> nrows J = length y0 -> ncols J = length y0 -> invertible (bdf_matrix (length y0) (h * bdf_beta k) J)).
    { rewrite Ly. intros t y J Ha _ _. apply (dissipative_one_minus n (mentry J)); [apply (HJ t y J Ha)|exact Hhb|reflexivity]. }
    pose proof (bdf_times _ _ _ _ _ _ _ _ _ _ E Ho) as (HNl & Htv & HkN & _).
    pose proof (bdf_newton_both F f HF HJm _ _ _ _ _ _ _ _ _ E Ho Hinv) as (Hlen & Hnew & _).
    pose proof (bdf_starting _ _ _ _ _ _ _ _ _ _ E Ho) as (_ & Hst & _).
    cbv zeta in * . fold h k ys in HNl, Htv, HkN, Hlen, Hnew, Hst. rewrite Ly in Hlen, Hnew.
    split; [symmetry; exact HNl|]. split; [intros i Hi; apply Htv; rewrite <- HNl; exact Hi|]. split; [exact Hlen|]. split.
    { intros j Hj. unfold yval. rewrite <- (firstn_skipn (S k) ys). rewrite Hst, app_nth1 by (rewrite repeat_length; lia). apply nth_repeat_lt. lia. }
    intros i Hi. destruct (Hnew i Hi) as (xs & es & (Lxs & _ & Hstep) & Hes & Hlast & _ & Hsmall).
    destruct (length es) as [|l] eqn:El; [lia|]. specialize (Hstep l ltac:(lia)).
    assert (E1 : last es [] = nth l es []) by (rewrite last_nth_len, El; f_equal; lia).
    assert (E2 : last xs [] = nth (S l) xs []) by (rewrite last_nth_len, Lxs; f_equal; lia).
    rewrite E1 in Hsmall. rewrite Hlast, E2. destruct Hstep as (L1 & L2 & L3 & J & Ha & Jr & Jc & J2 & J3).
    set (x := nth l xs []) in * . set (x' := nth (S l) xs []) in * . set (e := nth l es []) in * .
    destruct (HJ _ _ _ Ha) as (_ & Hk). specialize (Hk (t0 + INR i * h) x' x L3 L1).
    rewrite (nrm_ext n _ (fun p => h * bdf_beta k * (Rsum n (fun q => mentry J p q * (ventry x' q - ventry x q)) - (ventry (f (t0 + INR i * h) x') p - ventry (f (t0 + INR i * h) x) p)))).
    - rewrite nrm_scal by exact Hhb. apply Rmult_le_compat_l; [exact Hhb|]. eapply Rle_trans; [|eapply Rle_trans; [exact Hk|]].
      + right. unfold dist, nrm. f_equal. apply Rsum_ext. intros p Hp. rewrite !ventry_vt by exact Hp. ring.
      + apply Rmult_le_compat_l; [exact Hka|]. change (nrm n (fun p => ventry x' p - ventry x p) <= sqrt (INR n) * (1 / 10000000000)). apply nrm_bound; [lra|]. intros p Hp.
        rewrite (J3 p Hp). replace (ventry x p + ventry e p - ventry x p) with (ventry e p) by ring. eapply Rle_trans; [|apply Rlt_le; exact Hsmall].
        apply (proj1 (exact_norminf e)). apply nth_In. rewrite L2. exact Hp.
    - intros p Hp. pose proof (J2 p Hp) as Z. rewrite (Rsum_ext n (fun q => mentry J p q * (ventry x' q - ventry x q)) (fun q => mentry J p q * ventry e q)) by (intros q Hq; rewrite (J3 q Hq); ring).
      unfold bdf_residual in * . rewrite (J3 p Hp). lra.
  Qed.

  Lemma bdf_attracted c fuel t0 t1 y0 order dt w w' sol : attracted_to n f c -> length y0 = n -> (order = 1 \/ order = 2)%Z -> t0 < t1 -> 0 < dt ->
    bdf fuel F t0 t1 y0 order dt w = (w', Ok sol) ->
    forall i, (i < length (bo_y_vals sol))%nat ->
      dist n (nth i (bo_y_vals sol) []) c <= sqrt (IZR order) * dist n y0 c + 4 * (kappa * (sqrt (INR n) * (1 / 10000000000))) * (nth i (bo_t_vals sol) 0 - t0).
  Proof using HF HJm Hka HJ HP HX HN.
    intros Hc Ly Ho Ht Hdt E i Hi. assert (Ho' : (1 <= order <= 6)%Z) by lia. destruct (bdf_defects _ _ _ _ _ _ _ _ _ Ly Ho' Ht Hdt E) as (_ & HT & HL & H0 & HR). cbv zeta in * .
    set (h := Rmin dt (t1 - t0)) in * . set (k := Z.to_nat order) in * . set (ys := bo_y_vals sol) in * . set (eps := kappa * (sqrt (INR n) * (1 / 10000000000))) in * .
    assert (Hh : 0 < h) by (unfold h; apply Rmin_glb_lt; lra). assert (He : 0 <= eps) by (unfold eps; apply Rmult_le_pos; [exact Hka|]; apply Rmult_le_pos; [apply sqrt_pos|lra]).
    assert (Hk : (k = 1 \/ k = 2)%nat) by (unfold k; lia).
    assert (Hb : 0 <= bdf_beta k) by (apply Rlt_le, (bdf_beta_bounds k); lia).
    pose proof (growth12 n k (length ys) h (h * bdf_beta k * eps) (fun i p => ventry (yval ys i) p - ventry c p) (fun i p => ventry (f (t0 + INR i * h) (yval ys i)) p)) as G.
    specialize (G ltac:(apply Rmult_le_pos; [apply Rmult_le_pos; lra|exact He]) ltac:(lra)).
    assert (G' := G (fun i Hi => Hc _ _ (HL i ltac:(lia)))). clear G.
    assert (G : forall i0, (k < i0 < length ys)%nat -> nrm n (fun p => ventry (yval ys i0) p - ventry c p + Rsum k (fun j => bdf_weight k j * (ventry (yval ys (i0 - 1 - j)) p - ventry c p)) - h * bdf_beta k * ventry (f (t0 + INR i0 * h) (yval ys i0)) p) <= h * bdf_beta k * eps).
    { intros j Hj. eapply Rle_trans; [|apply (HR j Hj)]. right. apply nrm_ext. intros p Hp. unfold bdf_residual.
      rewrite (Rsum_ext k (fun j0 => bdf_weight k j0 * (ventry (yval ys (j - 1 - j0)) p - ventry c p)) (fun j0 => bdf_weight k j0 * ventry (yval ys (j - 1 - j0)) p - ventry c p * bdf_weight k j0)) by (intros; ring).
      rewrite Rsum_minus, Rsum_scal, (proj1 (bdf_weights_one k ltac:(lia))). ring. }
    specialize (G' G ltac:(intros j p Hj Hp; cbv beta; rewrite !H0 by lia; reflexivity) Hk i Hi). cbv beta in G'. rewrite (H0 0%nat) in G' by lia.
    change (dist n (yval ys i) c <= sqrt (IZR order) * dist n y0 c + 4 * eps * (nth i (bo_t_vals sol) 0 - t0)). rewrite (HT i Hi). replace (t0 + INR i * h - t0) with (INR i * h) by ring.
    change (dist n (yval ys i) c <= sqrt (INR k) * dist n y0 c + INR i * (if Nat.eq_dec k 1 then h * bdf_beta k * eps else 6 * (h * bdf_beta k * eps))) in G'.
    replace (IZR order) with (INR k) by (unfold k; rewrite INR_IZR_INZ, Z2Nat.id by lia; reflexivity). eapply Rle_trans; [exact G'|]. apply Rplus_le_compat_l.
    pose proof (pos_INR i). assert (0 <= INR i * h * eps) by (apply Rmult_le_pos; [apply Rmult_le_pos; lra|exact He]).
    destruct Hk as [Hk|Hk]; rewrite Hk; [destruct (Nat.eq_dec 1 1) as [_|X]; [|exfalso; apply X; reflexivity]; change (bdf_beta 1) with 1; lra|destruct (Nat.eq_dec 2 1) as [X|_]; [lia|]; change (bdf_beta 2) with (2 / 3); lra].
  Qed.

  Lemma bdf_contractive fuel t0 t1 y0 order dt w w' sol fuel2 z0 v v' sol2 : contractive n f -> length y0 = n -> length z0 = n -> (order = 1 \/ order = 2)%Z -> t0 < t1 -> 0 < dt ->
    bdf fuel F t0 t1 y0 order dt w = (w', Ok sol) -> bdf fuel2 F t0 t1 z0 order dt v = (v', Ok sol2) ->
    forall i, (i < length (bo_y_vals sol))%nat -> (i < length (bo_y_vals sol2))%nat ->
      nth i (bo_t_vals sol2) 0 = nth i (bo_t_vals sol) 0 /\
      dist n (nth i (bo_y_vals sol) []) (nth i (bo_y_vals sol2) []) <= sqrt (IZR order) * dist n y0 z0 + 8 * (kappa * (sqrt (INR n) * (1 / 10000000000))) * (nth i (bo_t_vals sol) 0 - t0).
  Proof using HF HJm Hka HJ HP HX HN.
    intros Hc Ly Lz Ho Ht Hdt E E2 i Hi Hi2. assert (Ho' : (1 <= order <= 6)%Z) by lia. destruct (bdf_defects _ _ _ _ _ _ _ _ _ Ly Ho' Ht Hdt E) as (_ & HT & HL & H0 & HR). destruct (bdf_defects _ _ _ _ _ _ _ _ _ Lz Ho' Ht Hdt E2) as (_ & KT & KL & K0 & KR). cbv zeta in * .
    set (h := Rmin dt (t1 - t0)) in * . set (k := Z.to_nat order) in * . set (ys := bo_y_vals sol) in * . set (zs := bo_y_vals sol2) in * . set (eps := kappa * (sqrt (INR n) * (1 / 10000000000))) in * .
    split; [rewrite HT, KT by assumption; reflexivity|].
    assert (Hh : 0 < h) by (unfold h; apply Rmin_glb_lt; lra). assert (He : 0 <= eps) by (unfold eps; apply Rmult_le_pos; [exact Hka|]; apply Rmult_le_pos; [apply sqrt_pos|lra]).
    assert (Hk : (k = 1 \/ k = 2)%nat) by (unfold k; lia).
    assert (Hb : 0 <= bdf_beta k) by (apply Rlt_le, (bdf_beta_bounds k); lia).
    set (N := Nat.min (length ys) (length zs)).
    pose proof (growth12 n k N h (2 * (h * bdf_beta k * eps)) (fun i p => ventry (yval ys i) p - ventry (yval zs i) p) (fun i p => ventry (f (t0 + INR i * h) (yval ys i)) p - ventry (f (t0 + INR i * h) (yval zs i)) p)) as G.
    specialize (G ltac:(apply Rmult_le_pos; [lra|apply Rmult_le_pos; [apply Rmult_le_pos; lra|exact He]]) ltac:(lra)).
    assert (G' := G (fun i Hi => Hc _ _ _ (HL i ltac:(lia)) (KL i ltac:(lia)))). clear G.
    assert (G : forall i0, (k < i0 < N)%nat -> nrm n (fun p => ventry (yval ys i0) p - ventry (yval zs i0) p + Rsum k (fun j => bdf_weight k j * (ventry (yval ys (i0 - 1 - j)) p - ventry (yval zs (i0 - 1 - j)) p))
      - h * bdf_beta k * (ventry (f (t0 + INR i0 * h) (yval ys i0)) p - ventry (f (t0 + INR i0 * h) (yval zs i0)) p)) <= 2 * (h * bdf_beta k * eps)).
    { intros j Hj. pose proof (HR j ltac:(lia)) as A. pose proof (KR j ltac:(lia)) as B.
      pose proof (nrm_minus n (bdf_residual k f (t0 + INR j * h) h ys j (yval ys j)) (bdf_residual k f (t0 + INR j * h) h zs j (yval zs j))) as C.
      eapply Rle_trans; [right|eapply Rle_trans; [exact C|lra]]. apply nrm_ext. intros p Hp. unfold bdf_residual.
      rewrite (Rsum_ext k (fun j0 => bdf_weight k j0 * (ventry (yval ys (j - 1 - j0)) p - ventry (yval zs (j - 1 - j0)) p)) (fun j0 => bdf_weight k j0 * ventry (yval ys (j - 1 - j0)) p - bdf_weight k j0 * ventry (yval zs (j - 1 - j0)) p)) by (intros; ring).
      rewrite Rsum_minus. ring. }
    specialize (G' G ltac:(intros j p Hj Hp; cbv beta; rewrite !H0, !K0 by lia; reflexivity) Hk i ltac:(unfold N; lia)). cbv beta in G'. rewrite (H0 0%nat), (K0 0%nat) in G' by lia.
    change (dist n (yval ys i) (yval zs i) <= sqrt (IZR order) * dist n y0 z0 + 8 * eps * (nth i (bo_t_vals sol) 0 - t0)). rewrite (HT i Hi). replace (t0 + INR i * h - t0) with (INR i * h) by ring.
    change (dist n (yval ys i) (yval zs i) <= sqrt (INR k) * dist n y0 z0 + INR i * (if Nat.eq_dec k 1 then 2 * (h * bdf_beta k * eps) else 6 * (2 * (h * bdf_beta k * eps)))) in G'.
    replace (IZR order) with (INR k) by (unfold k; rewrite INR_IZR_INZ, Z2Nat.id by lia; reflexivity). eapply Rle_trans; [exact G'|]. apply Rplus_le_compat_l.
    pose proof (pos_INR i). assert (0 <= INR i * h * eps) by (apply Rmult_le_pos; [apply Rmult_le_pos; lra|exact He]).
    destruct Hk as [Hk|Hk]; rewrite Hk; [destruct (Nat.eq_dec 1 1) as [_|X]; [|exfalso; apply X; reflexivity]; change (bdf_beta 1) with 1; lra|destruct (Nat.eq_dec 2 1) as [X|_]; [lia|]; change (bdf_beta 2) with (2 / 3); lra].
  Qed.
End Runs.
