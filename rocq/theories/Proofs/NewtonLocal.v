(** C114: newton_iterate converges from every good enough initial guess. *)
From Coq Require Import Reals Lra Psatz.
From Coquelicot Require Import Coquelicot.
From Verif Require Import Model.Base Model.Scalar Model.LinAlg Model.Newton Spec.Sums Spec.ErkSpec Spec.NewtonSpec Spec.NewtonLocalSpec
  Proofs.LoopProofs Proofs.SumsProofs Proofs.RVec Proofs.NewtonProofs Proofs.NewtonTotal Proofs.NewtonReal Proofs.NewtonLog.
Local Open Scope R_scope.

Lemma near_le d d' z x : d <= d' -> near d z x -> near d' z x.
Proof. intros H [H1 H2]. split; [exact H1|]. intros i Hi. eapply Rle_trans; [apply H2, Hi|exact H]. Qed.
Lemma between_length z x s : length (between z x s) = length z. Proof. apply vtab_length. Qed.
Lemma between_entry z x s i : (i < length z)%nat -> ventry (between z x s) i = ventry z i + s * (ventry x i - ventry z i).
Proof. intros Hi. unfold between. rewrite ventry_vt by exact Hi. reflexivity. Qed.
Lemma between_0 z x : between z x 0 = z.
Proof. apply vec_ext; rewrite between_length; [reflexivity|]. intros i Hi. rewrite between_entry by exact Hi. ring. Qed.
Lemma between_1 z x : length x = length z -> between z x 1 = x.
Proof. intros H. apply vec_ext; rewrite between_length; [auto|]. intros i Hi. rewrite between_entry by exact Hi. ring. Qed.
Lemma between_near z x d s : 0 <= s <= 1 -> near d z x -> near d z (between z x s).
Proof.
  intros Hs [H1 H2]. split; [apply between_length|]. intros i Hi. rewrite between_entry by exact Hi.
  replace (ventry z i + s * (ventry x i - ventry z i) - ventry z i) with (s * (ventry x i - ventry z i)) by ring.
  rewrite Rabs_mult, (Rabs_pos_eq s) by lra. specialize (H2 i Hi). pose proof (Rabs_pos (ventry x i - ventry z i)). nra.
Qed.
Lemma Rsum_mul_le n (a w : nat -> R) S d : 0 <= d -> (forall j, (j < n)%nat -> Rabs (w j) <= d) -> Rsum n (fun j => Rabs (a j)) <= S ->
  Rabs (Rsum n (fun j => a j * w j)) <= S * d.
Proof.
  intros Hd Hw HS. eapply Rle_trans; [apply Rsum_abs|]. eapply Rle_trans; [apply (Rsum_le n _ (fun j => Rabs (a j) * d))|].
  - intros j Hj. rewrite Rabs_mult. apply Rmult_le_compat_l; [apply Rabs_pos|apply Hw, Hj].
  - rewrite Rsum_scal_r. apply Rmult_le_compat_r; assumption.
Qed.

Section Root.
  Context (f : list R -> list R) (J : list R -> mat R) (z : list R) (rho beta La L : R).
  Hypothesis HR : regular_root f J z rho beta La L.
  Local Notation n := (length z).

  Lemma ray x i : near rho z x -> (i < n)%nat -> exists c, 0 <= c <= 1 /\
    ventry (f x) i = Rsum n (fun j => mentry (J (between z x c)) i j * (ventry x j - ventry z j)).
  Proof.
    intros Hx Hi.
    destruct (MVT_gen (fun u => ventry (f (between z x u)) i) 0 1
      (fun s => Rsum n (fun j => mentry (J (between z x s)) i j * (ventry x j - ventry z j)))) as (c & Hc & E).
    - intros s Hs. rewrite Rmin_left, Rmax_right in Hs by lra. apply (rr_derivative _ _ _ _ _ _ _ HR); [exact Hx|exact Hi|lra].
    - intros s Hs. rewrite Rmin_left, Rmax_right in Hs by lra. apply continuity_pt_filterlim, (ex_derive_continuous (V := R_NormedModule)).
      eexists. apply (rr_derivative _ _ _ _ _ _ _ HR); [exact Hx|exact Hi|lra].
    - rewrite Rmin_left, Rmax_right in Hc by lra. exists c. split; [exact Hc|].
      rewrite between_0, between_1, (rr_root _ _ _ _ _ _ _ HR) in E by (exact Hi || apply Hx). lra.
  Qed.
  Lemma f_bound x d i : d <= rho -> 0 <= d -> near d z x -> (i < n)%nat -> Rabs (ventry (f x) i) <= L * d.
  Proof.
    intros Hd H0 Hx Hi. pose proof (near_le _ _ _ _ Hd Hx) as Hx'. destruct (ray x i Hx' Hi) as (c & Hc & ->).
    apply Rsum_mul_le; [exact H0|apply Hx|]. apply (rr_bound _ _ _ _ _ _ _ HR); [apply between_near; assumption|exact Hi].
  Qed.
  Lemma remainder x y d d' i : d <= rho -> 0 <= d -> d' <= rho -> near d z x -> near d' z y -> (i < n)%nat ->
    Rabs (Rsum n (fun j => mentry (J y) i j * (ventry x j - ventry z j)) - ventry (f x) i) <= La * (d' + d) * d.
  Proof.
    intros Hd H0 Hd' Hx Hy Hi. pose proof (near_le _ _ _ _ Hd Hx) as Hx'. destruct (ray x i Hx' Hi) as (c & Hc & ->).
    rewrite <- Rsum_minus. rewrite (Rsum_ext _ _ (fun j => (mentry (J y) i j - mentry (J (between z x c)) i j) * (ventry x j - ventry z j))) by (intros; ring).
    apply Rsum_mul_le; [exact H0|apply Hx|]. apply (rr_lipschitz _ _ _ _ _ _ _ HR); [apply (near_le d'); assumption|apply between_near; assumption| |exact Hi].
    destruct Hy as [Hy1 Hy2]. split; [rewrite between_length; auto|]. rewrite Hy1. intros j Hj.
    destruct (between_near z x d c Hc Hx) as [_ Hb]. specialize (Hb j Hj). specialize (Hy2 j Hj).
    replace (ventry (between z x c) j - ventry y j) with ((ventry (between z x c) j - ventry z j) - (ventry y j - ventry z j)) by ring.
    eapply Rle_trans; [apply Rabs_triang|]. rewrite Rabs_Ropp. lra.
  Qed.
End Root.

Section Local.
  Context {LA : LinAlg R} {HP : ExactProducts LA} {E : Env R} {HX : ExactSolve LA} {HN : ExactNorm LA} {St : Type} (F : nfunctor R St).
  Context (f : list R -> list R) (J : list R -> mat R) (z x : list R) (opts : options R) (stats : status R) (quiet : bool) (rho beta La L : R).
  Hypothesis HF : answers F (length z) f J.
  Hypothesis HR : regular_root f J z rho beta La L.
  Hypothesis Hnx : near rho z x.
  Hypothesis Hms : o_max_step opts <= 0.
  Hypothesis Hdx : 0 < o_dx_delta opts.
  Hypothesis Hjunk : o_precondition opts = true -> junk = 0.
  Local Notation n := (length z).
  Let th := 2 * beta * La * rho + (if o_limit_step opts then INR n * ((L * rho) * (L * rho)) else 0).
  Hypothesis Hth : th < 1.

  Let signs := rr_signs _ _ _ _ _ _ _ HR.
  Let damp := if o_limit_step opts then INR n * (L * L) else 0.
  Lemma damp_nonneg : 0 <= damp.
  Proof. unfold damp. destruct (o_limit_step opts); [|lra]. pose proof (pos_INR n). nra. Qed.
  Lemma th_eq : th = 2 * beta * La * rho + damp * (rho * rho).
  Proof. unfold th, damp. destruct (o_limit_step opts); ring. Qed.
  Lemma th_nonneg : 0 <= th.
  Proof.
    rewrite th_eq. pose proof damp_nonneg. destruct signs as (H1 & H2 & H3 & H4).
    assert (0 <= beta * La) by nra. assert (0 <= beta * La * rho) by nra. assert (0 <= rho * rho) by nra. nra.
  Qed.

  (** [v] sits within d of the root, and its matrix comes from a point within d' of it *)
  Definition at_dist (d d' : R) (v : visit R) : Prop :=
    near d z (v_x v) /\ v_r v = f (v_x v) /\ length (v_r v) = n /\ exists y, near d' z y /\ v_J v = J y.

  Lemma J_square y s : length y = n -> exists s', n_jac F y s = (s', Ok (J y)) /\ mat_wf (J y) /\ nrows (J y) = n /\ ncols (J y) = n.
  Proof. apply HF. Qed.

  (** one step *)
  Lemma local_step d d' v v' (s : St) : 0 <= d <= rho -> 0 <= d' <= rho -> at_dist d d' v -> newton_step opts v v' ->
    near (damp * (d * d) * d + beta * (La * (d' + d) * d)) z (v_x v') /\
    (forall a, In a (v_d v') -> Rabs a <= d + beta * (La * (d' + d) * d)) /\
    (forall D, (forall a, In a (v_d v') -> Rabs a <= D) -> near (D + beta * (La * (d' + d) * d)) z (v_x v)).
  Proof.
    intros Hd Hd' (A1 & A2 & A3 & y & Hy & A4) (e & He & Hl & Hv & Hx').
    destruct (Rlt_dec 0 (o_max_step opts)) as [Hc|_]; [lra|].
    destruct (rr_inverse _ _ _ _ _ _ _ HR y (near_le _ _ _ _ (proj2 Hd') Hy)) as (B & HB & Hbeta).
    destruct (J_square y s (proj1 Hy)) as (_ & _ & _ & Hn1 & Hn2).
    rewrite A4 in He. pose proof (inverse_solution _ _ _ _ HB He) as Hinv.
    destruct He as (E1 & E2 & E3). rewrite Hn2 in E1. rewrite Hn1, Hn2 in E3.
    set (w := fun j => ventry (v_x v) j - ventry z j). set (p := fun i => w i + ventry e i). set (q := beta * (La * (d' + d) * d)).
    (* the undamped Newton point *)
    assert (Hp : forall i, (i < n)%nat -> Rabs (p i) <= q).
    { intros i Hi.
      assert (Ep : p i = Rsum n (fun k => mentry B i k * (Rsum n (fun j => mentry (J y) k j * w j) - ventry (f (v_x v)) k))).
      { assert (Hfk : forall k, (k < n)%nat -> ventry (f (v_x v)) k = - Rsum n (fun j => mentry (J y) k j * ventry e j)).
        { intros k Hk. rewrite E3 by exact Hk. rewrite ventry_vopp, A2. ring. }
        rewrite (Rsum_ext _ _ (fun k => Rsum n (fun j => mentry B i k * mentry (J y) k j * p j))).
        2:{ intros k Hk. rewrite Hfk by exact Hk. unfold Rminus. rewrite Ropp_involutive, <- Rsum_plus, <- (Rsum_scal n).
            apply Rsum_ext. intros j _. unfold p. ring. }
        rewrite Rsum_swap. rewrite (Rsum_ext _ _ (fun j => delta i j * p j)).
        2:{ intros j Hj. rewrite Rsum_scal_r. f_equal. destruct HB as (_ & _ & _ & HB). rewrite Hn1 in HB. apply (HB i j Hi Hj). }
        rewrite delta_sum by exact Hi. reflexivity. }
      rewrite Ep. destruct signs as (S1 & S2 & S3 & S4). apply Rsum_mul_le; [assert (0 <= La * (d' + d)) by nra; nra| |apply Hbeta, Hi].
      intros k Hk. apply (remainder f J z rho beta La L HR); lra || assumption. }
    assert (Hw : forall i, (i < n)%nat -> Rabs (w i) <= d) by apply A1.
    assert (Hd1 : v_d v' = e). { rewrite Hv. rewrite (map_ext _ (fun a => a)) by (intros; ring). apply map_id. }
    assert (Hin : forall a, In a e -> exists i, (i < n)%nat /\ a = ventry e i).
    { intros a Ha. apply (In_nth _ _ 0) in Ha. destruct Ha as (i & Hi & <-). exists i. split; [congruence|reflexivity]. }
    split; [|split].
    - split; [rewrite Hl; apply A1|]. intros i Hi. rewrite Hx' by (rewrite (proj1 A1); exact Hi).
      set (lam := if o_limit_step opts then 1 / (1 + norm2 (v_r v) * norm2 (v_r v)) else 1) in * .
      assert (Hlam : 0 <= 1 - lam <= damp * (d * d) /\ 0 <= lam).
      { unfold lam, damp. destruct (o_limit_step opts); [|lra].
        assert (Hr : norm2 (v_r v) * norm2 (v_r v) <= INR n * (L * L) * (d * d)).
        { unfold norm2. rewrite sqrt_sqrt by (apply Rsum_nonneg; intros; apply Rle_0_sqr). rewrite A3.
          eapply Rle_trans; [apply (Rsum_le n _ (fun _ => (L * d) * (L * d)))|rewrite Rsum_const; apply Req_le; ring].
          intros k Hk. rewrite A2. pose proof (f_bound f J z rho beta La L HR (v_x v) d k ltac:(lra) ltac:(lra) A1 Hk) as Hb.
          apply Rsqr_le_abs_1. rewrite (Rabs_pos_eq (L * d)); [exact Hb|]. destruct signs as (_ & _ & _ & S4). nra. }
        pose proof (Rle_0_sqr (norm2 (v_r v))) as H0. unfold Rsqr in H0. set (N := norm2 (v_r v) * norm2 (v_r v)) in * .
        assert (HI : 0 < 1 / (1 + N)) by (apply Rdiv_lt_0_compat; lra).
        assert (E0 : 1 - 1 / (1 + N) = N * (1 / (1 + N))) by (field; lra).
        assert (1 / (1 + N) <= 1) by (apply Rle_div_l; lra). rewrite E0. split; [split; nra|lra]. }
      replace (ventry (v_x v) i + lam * 1 * ventry e i - ventry z i) with ((1 - lam) * w i + lam * p i) by (unfold p, w; ring).
      eapply Rle_trans; [apply Rabs_triang|]. rewrite !Rabs_mult, (Rabs_pos_eq (1 - lam)), (Rabs_pos_eq lam) by lra.
      specialize (Hw i Hi). specialize (Hp i Hi). pose proof (Rabs_pos (w i)). pose proof (Rabs_pos (p i)). fold q.
      assert ((1 - lam) * Rabs (w i) <= damp * (d * d) * d) by (apply Rmult_le_compat; lra).
      assert (lam * Rabs (p i) <= 1 * q) by (apply Rmult_le_compat; lra). lra.
    - rewrite Hd1. intros a Ha. destruct (Hin a Ha) as (i & Hi & ->). replace (ventry e i) with (p i - w i) by (unfold p; ring).
      eapply Rle_trans; [apply Rabs_triang|]. rewrite Rabs_Ropp. specialize (Hw i Hi). specialize (Hp i Hi). fold q. lra.
    - rewrite Hd1. intros D HD. split; [apply A1|]. intros i Hi. change (ventry (v_x v) i - ventry z i) with (w i).
      replace (w i) with (p i - ventry e i) by (unfold p; ring). eapply Rle_trans; [apply Rabs_triang|]. rewrite Rabs_Ropp.
      assert (Rabs (ventry e i) <= D) by (apply HD, nth_In; congruence). specialize (Hp i Hi). fold q. lra.
  Qed.

  Let refresh := (o_refresh_jac opts >? 0)%Z.
  Definition expo (k : nat) : nat := if refresh then (2 ^ k - 1)%nat else k.
  Definition dist (k : nat) : R := rho * th ^ expo k.
  (** how far the point may be that the matrix comes from *)
  Definition mdist (d : R) : R := if refresh then d else rho.

  Lemma pow_le1 k : 0 <= th ^ k <= 1.
  Proof. pose proof th_nonneg. split; [apply pow_le; assumption|]. rewrite <- (pow1 k). apply pow_incr. lra. Qed.
  Lemma dist_le k : 0 <= dist k <= rho.
  Proof. unfold dist. pose proof (pow_le1 (expo k)). destruct signs as (S1 & _). nra. Qed.
  Lemma contracts d : 0 <= d <= rho -> damp * (d * d) * d + beta * (La * (mdist d + d) * d) <= th * d.
  Proof.
    intros Hd. rewrite th_eq. pose proof damp_nonneg. destruct signs as (S1 & S2 & S3 & S4).
    assert (mdist d <= rho) by (unfold mdist; destruct refresh; lra).
    assert (0 <= beta * La) by nra. assert (d * d <= rho * rho) by nra.
    assert (damp * (d * d) * d <= damp * (rho * rho) * d) by (apply Rmult_le_compat_r; [lra|]; apply Rmult_le_compat_l; lra).
    replace (beta * (La * (mdist d + d) * d)) with (beta * La * (mdist d + d) * d) by ring.
    assert (beta * La * (mdist d + d) * d <= beta * La * (2 * rho) * d) by (apply Rmult_le_compat_r; [lra|]; apply Rmult_le_compat_l; lra).
    lra.
  Qed.
  Lemma next_dist k : let d := dist k in damp * (d * d) * d + beta * (La * (mdist d + d) * d) <= dist (S k).
  Proof.
    intros d. pose proof (dist_le k) as Hd. fold d in Hd. destruct (bool_dec refresh true) as [Er|Er].
    - destruct signs as (S1 & S2 & S3 & S4). pose proof damp_nonneg.
      assert (Hdd : dist (S k) = th / rho * (d * d)).
      { unfold d, dist, expo. rewrite Er. replace (2 ^ S k - 1)%nat with (1 + ((2 ^ k - 1) + (2 ^ k - 1)))%nat.
        - rewrite !pow_add. field. lra.
        - simpl. assert (2 ^ k <> 0)%nat by (apply Nat.pow_nonzero; lia). lia. }
      rewrite Hdd. unfold mdist. rewrite Er. replace (th / rho * (d * d)) with ((th / rho) * d * d) by ring.
      replace (th / rho) with (2 * beta * La + damp * rho) by (rewrite th_eq; field; lra).
      assert (damp * (d * d) * d <= damp * (d * d) * rho) by (apply Rmult_le_compat_l; [assert (0 <= d * d) by nra; nra|lra]). nra.
    - apply not_true_is_false in Er. replace (dist (S k)) with (th * d) by (unfold d, dist, expo; rewrite Er; simpl; ring). apply contracts, Hd.
  Qed.

  Lemma newton_local K s l : 2 * dist K < o_dx_delta opts -> (Z.of_nat K + 1 < o_maxit opts)%Z ->
    exists s' v0 V x' st pr,
      newton_iterate (nlogged F) x opts stats quiet (s, l) = ((s', l ++ newton_log refresh v0 V), Ok (x', st, pr)) /\
      v_x v0 = x /\ (forall k v, nth_error (v0 :: V) k = Some v -> near (dist k) z (v_x v)) /\
      (1 <= length V <= K + 1)%nat /\ st_iters st = Z.of_nat (length V) /\
      st_conv st = SUCCESS /\ x' = v_x (last V v0) /\ near (th * (o_dx_delta opts / (1 - th))) z x'.
  Proof.
    intros HK Hmaxit. destruct HF as [Hf HJ].
    destruct (newton_returns (nlogged F) n) with (x := x) (opts := opts) (stats := stats) (quiet := quiet) (s := (s, l)) as ((s' & l') & [[x' st] pr] & Hr).
    { intros y [s0 l0] Hy. destruct (Hf y s0 Hy) as (s1 & H1 & H2). exists (s1, l0 ++ [NFun y (f y)]), (f y). simpl. rewrite H1. auto. }
    { intros y [s0 l0] Hy. destruct (HJ y s0 Hy) as (s1 & H1 & H2 & H3 & H4). exists (s1, l0 ++ [NJac y (J y)]), (J y). simpl. rewrite H1. split; [reflexivity|]. congruence. }
    { apply Hnx. }
    pose proof Hr as Hr0. rewrite dispatch in Hr. change (if (o_refresh_jac opts >? 0)%Z then 1%Z else 0%Z) with (flag opts) in Hr.
    unfold newton_iterate_impl in Hr. apply impl_run in Hr.
    destruct Hr as (v0 & V & Hx & Hd0 & (Ha1 & Ha2 & Ha3) & Hlog & Hmv & Hnc & Hlen & Hit & Hpr & Hout).
    cbn [fst snd] in * . rewrite flag_refresh in * . change (o_refresh_jac opts >? 0)%Z with refresh in Ha3, Hlog. subst l'.
    assert (Hdist0 : dist 0 = rho) by (unfold dist, expo; destruct refresh; simpl; ring).
    (* what is known at every point *)
    assert (Hval : forall v, In v (v0 :: V) -> length (v_x v) = n -> v_r v = f (v_x v) /\ length (v_r v) = n).
    { intros v Hv Hl. rewrite Forall_forall in Ha1. destruct (Ha1 v Hv) as (s0 & s1 & H1). destruct (Hf (v_x v) s0 Hl) as (s2 & H2 & H3).
      rewrite H2 in H1. injection H1 as _ E3. rewrite <- E3. split; [reflexivity|exact H3]. }
    assert (HJ0 : v_J v0 = J x).
    { destruct Ha2 as (s0 & s1 & H1). destruct (HJ (v_x v0) s0) as (s2 & H2 & _); [rewrite Hx; apply Hnx|]. rewrite H2 in H1. injection H1 as _ E3. rewrite <- E3, Hx. reflexivity. }
    assert (Hinvt : forall d d' v, d' <= rho -> at_dist d d' v -> invertible (v_J v)).
    { intros d d' v Hd' (_ & _ & _ & y & Hy & ->). destruct (rr_inverse _ _ _ _ _ _ _ HR y (near_le _ _ _ _ Hd' Hy)) as (B & HB & _). exists B. exact HB. }
    assert (Hmd : forall d, 0 <= d <= rho -> 0 <= mdist d <= rho) by (intros d Hd; unfold mdist; destruct refresh; destruct signs; lra).
    (* the matrix of a later point *)
    assert (Hmat : forall u v d, In v V -> (refresh = false -> v_J v = v_J u) -> (exists y, near rho z y /\ v_J u = J y) -> near d z (v_x v) ->
      exists y, near (mdist d) z y /\ v_J v = J y).
    { intros u v d Hv Hu (y & Hy & Ey) Hd. destruct (bool_dec refresh true) as [Er|Er].
      - specialize (Ha3 Er). rewrite Forall_forall in Ha3. destruct (Ha3 v Hv) as (s0 & s1 & H1). destruct (HJ (v_x v) s0 (proj1 Hd)) as (s2 & H2 & _).
        rewrite H2 in H1. injection H1 as _ E3. exists (v_x v). unfold mdist. rewrite Er. auto.
      - apply not_true_is_false in Er. exists y. unfold mdist. rewrite Er, Hu by exact Er. auto. }
    assert (Hat : forall k v, nth_error (v0 :: V) k = Some v -> at_dist (dist k) (mdist (dist k)) v).
    { induction k as [|k IH]; intros v Hv.
      - injection Hv as <-. rewrite Hdist0. assert (Hn0 : near rho z (v_x v0)) by (rewrite Hx; exact Hnx).
        destruct (Hval v0 (or_introl eq_refl) (proj1 Hn0)) as [H1 H2]. split; [exact Hn0|]. split; [exact H1|]. split; [exact H2|].
        exists x. split; [unfold mdist; destruct refresh; exact Hnx|exact HJ0].
      - destruct (nth_error (v0 :: V) k) as [u|] eqn:Eu.
        2:{ apply nth_error_None in Eu. assert (nth_error (v0 :: V) (S k) <> None) by congruence. apply nth_error_Some in H. lia. }
        pose proof (IH u eq_refl) as Hg. pose proof (Hmv k u v Eu Hv) as Hm.
        pose proof (dist_le k) as Hdk. pose proof (Hmd _ Hdk) as Hmk.
        assert (Hst : newton_step opts u v) by (apply (moves_step x opts Hjunk u v Hm); eapply Hinvt; [|exact Hg]; lra).
        destruct (local_step _ _ u v s Hdk Hmk Hg Hst) as (G1 & _). pose proof (near_le _ _ _ _ (next_dist k) G1) as G2.
        assert (Hin : In v (v0 :: V)) by (eapply nth_error_In; exact Hv).
        destruct (Hval v Hin (proj1 G2)) as [H1 H2]. split; [exact G2|]. split; [exact H1|]. split; [exact H2|].
        simpl in Hv. apply (Hmat u); [eapply nth_error_In; exact Hv| | |exact G2].
        + intros Er. destruct Hm as [[_ Hm] _]. apply Hm. rewrite flag_refresh. exact Er.
        + destruct Hg as (_ & _ & _ & y & Hy & Ey). exists y. split; [|exact Ey]. apply (near_le (mdist (dist k))); [lra|exact Hy]. }
    assert (Hstep : forall k u v, nth_error (v0 :: V) k = Some u -> nth_error (v0 :: V) (S k) = Some v -> newton_step opts u v).
    { intros k u v Hu Hv. apply (moves_step x opts Hjunk u v (Hmv k u v Hu Hv)). eapply Hinvt; [|apply (Hat k), Hu]. apply Hmd, dist_le. }
    assert (HleK : (length V <= K + 1)%nat).
    { destruct (le_lt_dec (length V) (K + 1)) as [|Hgt]; [assumption|]. exfalso.
      destruct (nth_error (v0 :: V) K) as [u|] eqn:Eu. 2:{ apply nth_error_None in Eu. simpl in Eu. lia. }
      destruct (nth_error (v0 :: V) (S K)) as [v|] eqn:Ev. 2:{ apply nth_error_None in Ev. simpl in Ev. lia. }
      assert (Hc : converged opts v = true).
      { pose proof (dist_le K) as HdK. destruct (local_step _ _ u v s HdK (Hmd _ HdK) (Hat K u Eu) (Hstep K u v Eu Ev)) as (_ & G & _).
        unfold converged. apply Rltb_t. destruct (exact_norminf (LA := LA) (v_d v)) as [_ [[_ ->]|(a & Ha & ->)]]; [exact Hdx|].
        eapply Rle_lt_trans; [apply G, Ha|]. pose proof (contracts _ HdK) as Hc. pose proof damp_nonneg.
        assert (0 <= damp * (dist K * dist K) * dist K) by (assert (0 <= dist K * dist K) by nra; assert (0 <= damp * (dist K * dist K)) by nra; nra).
        assert (th * dist K <= 1 * dist K) by (apply Rmult_le_compat_r; lra). lra. }
      rewrite Hnc in Hc; [discriminate|]. simpl in Ev.
      assert (Hne : V <> []) by (destruct V; [simpl in Hgt; lia|discriminate]).
      destruct (exists_last Hne) as (V' & v' & E'). rewrite E' in Ev, Hgt |- * . rewrite removelast_last. rewrite app_length in Hgt. simpl in Hgt.
      rewrite nth_error_app1 in Ev by lia. eapply nth_error_In; exact Ev. }
    destruct (cons_last v0 V) as [l0 El].
    assert (Hlk : nth_error (v0 :: V) (length l0) = Some (last V v0)) by (rewrite El, nth_error_app2, Nat.sub_diag by lia; reflexivity).
    pose proof (Hat _ _ Hlk) as Hgl. pose proof (dist_le (length l0)) as Hdl. pose proof (Hmd _ Hdl) as Hml.
    destruct Hout as [(_ & _ & _ & _ & _ & _ & LUP & e & Hsh & He)|(Hres & _ & Hconv & Hx' & Hdone)].
    { exfalso. assert (Hiv : invertible (v_J (last V v0))) by (eapply Hinvt; [|exact Hgl]; lra).
      destruct Hgl as (G1 & G2 & G3 & y & G4 & G5). destruct (HJ y s (proj1 G4)) as (_ & _ & J1 & J2 & J3).
      destruct (direction_ok_R (flag opts) (o_precondition opts) (length x) (v_J (last V v0)) LUP (v_r (last V v0))) as (d & LUP' & Hd).
      - apply (flag_store opts).
      - intros Hp. split; [apply Hjunk, Hp|]. split; [apply Hsh, (flag_store opts)|]. rewrite G5. exact J1.
      - exact Hiv.
      - rewrite G5, J2. symmetry. apply Hnx.
      - rewrite G3. symmetry. apply Hnx.
      - rewrite Hd in He. discriminate. }
    destruct Hdone as (V' & vl & EV & Hcl); [lia|].
    assert (Hconv' : st_conv st = SUCCESS).
    { rewrite Hconv. replace (sfinite (st_res st)) with true by reflexivity. cbn [negb].
      destruct (Z.of_nat (length V) =? o_maxit opts)%Z eqn:Em; [apply Z.eqb_eq in Em; lia|reflexivity]. }
    assert (Ex' : x' = v_x (last V v0)) by (rewrite Hx', Hconv'; reflexivity).
    exists s', v0, V, x', st, pr. split; [exact Hr0|]. split; [exact Hx|]. split; [intros k v Hk; apply (Hat k v Hk)|].
    split; [split; [rewrite EV, app_length; simpl; lia|exact HleK]|]. split; [exact Hit|]. split; [exact Hconv'|]. split; [exact Ex'|].
    (* the last two points *)
    assert (Hlast : last V v0 = vl) by (rewrite EV; apply last_last). rewrite Ex', Hlast.
    destruct (nth_error (v0 :: V) (length V')) as [u|] eqn:Eu.
    2:{ apply nth_error_None in Eu. rewrite EV in Eu. simpl in Eu. rewrite app_length in Eu. simpl in Eu. lia. }
    assert (Ev : nth_error (v0 :: V) (S (length V')) = Some vl) by (simpl; rewrite EV, nth_error_app2, Nat.sub_diag by lia; reflexivity).
    pose proof (Hat _ _ Eu) as Hu. pose proof (Hstep _ _ _ Eu Ev) as Hs.
    (* the exact distance of u *)
    pose proof (exact_norminf (LA := LA) (vminus (v_x u) z)) as [Hup Hatt]. set (D := la_norminf (vminus (v_x u) z)) in * .
    assert (Lu : length (v_x u) = n) by apply Hu.
    assert (Hin : forall a, In a (vminus (v_x u) z) -> exists i, (i < n)%nat /\ a = ventry (v_x u) i - ventry z i).
    { intros a Ha. apply (In_nth _ _ 0) in Ha. unfold vminus in Ha. rewrite vtab_length, Lu in Ha. destruct Ha as (i & Hi & <-). exists i. split; [exact Hi|]. rewrite vtab_nth by exact Hi. reflexivity. }
    assert (HnD : near D z (v_x u)).
    { split; [exact Lu|]. intros i Hi. apply Hup. replace (ventry (v_x u) i - ventry z i) with (ventry (vminus (v_x u) z) i).
      - apply nth_In. unfold vminus. rewrite vtab_length. congruence.
      - unfold vminus. rewrite ventry_vt by congruence. reflexivity. }
    assert (HDe : forall d, 0 <= d -> near d z (v_x u) -> D <= d).
    { intros d H0 [_ Hd]. destruct Hatt as [[_ ->]|(a & Ha & ->)]; [exact H0|]. destruct (Hin a Ha) as (i & Hi & ->). apply Hd, Hi. }
    assert (HD0 : 0 <= D) by (destruct Hatt as [[_ ->]|(a & _ & ->)]; [lra|apply Rabs_pos]).
    assert (HDr : D <= rho).
    { apply HDe; [destruct signs; lra|]. eapply near_le; [|apply Hu]. apply dist_le. }
    assert (HuD : at_dist D (mdist D) u).
    { destruct Hu as (U1 & U2 & U3 & y & U4 & U5). split; [exact HnD|]. split; [exact U2|]. split; [exact U3|].
      destruct V' as [|u' V''].
      - simpl in Eu. injection Eu as <-. exists x. rewrite <- Hx at 1. split; [|exact HJ0]. unfold mdist. destruct refresh; [exact HnD|rewrite Hx; exact Hnx].
      - assert (HuV : In u V) by (simpl in Eu; eapply nth_error_In; exact Eu). apply (Hmat u); [exact HuV|reflexivity| |exact HnD].
        exists y. split; [|exact U5]. apply (near_le _ rho) in U4; [exact U4|]. apply Hmd, dist_le. }
    assert (HDb : 0 <= D <= rho) by lra.
    destruct (local_step _ _ u vl s HDb (Hmd _ HDb) HuD Hs) as (G1 & _ & G3).
    pose proof (contracts D HDb) as Hc. pose proof (near_le _ _ _ _ Hc G1) as G4.
    unfold converged in Hcl. apply Rltb_t in Hcl.
    assert (Hdl' : forall a, In a (v_d vl) -> Rabs a <= o_dx_delta opts) by (intros a Ha; pose proof (proj1 (exact_norminf (LA := LA) (v_d vl)) a Ha); lra).
    specialize (G3 _ Hdl'). pose proof damp_nonneg. pose proof th_nonneg.
    assert (0 <= damp * (D * D) * D) by (assert (0 <= D * D) by nra; assert (0 <= damp * (D * D)) by nra; nra).
    assert (HDle : D <= th * D + o_dx_delta opts).
    { apply HDe; [assert (0 <= th * D) by nra; lra|]. eapply near_le; [|exact G3]. lra. }
    eapply near_le; [|exact G4]. apply Rmult_le_compat_l; [assumption|]. apply Rle_div_r; lra.
  Qed.
End Local.
