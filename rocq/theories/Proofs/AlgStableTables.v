(** The closed implicit methods are algebraically stable, observable and stiffly accurate: checked exactly in Q(sqrt d). *)
From Coq Require Import QArith Qreals Reals Lra.
From Verif Require Import Model.Base Model.Scalar Model.LinAlg Model.Enums Model.Coeffs Model.IrkCoeffs Spec.Sums Spec.Trees Spec.Methods Spec.NewtonSpec Spec.IrkSpec Spec.StabilitySpec.
From Verif Require Import Proofs.SumsProofs Proofs.RVec Proofs.QuadField Proofs.OrderProofs Proofs.IrkCoeffsProofs Proofs.IrkInverse Proofs.Neumann Proofs.TablesFinal Proofs.AlgStable.
Local Open Scope R_scope.

Section Check.
  Variable d : Z.
  Hypothesis d_nonneg : (0 <= d)%Z.
  (** sufficient for q0 + q1 sqrt d > 0 *)
  Definition q_pos (x : qs) : bool :=
    (negb (Qle_bool (q0 x) 0) && negb (Qle_bool (q0 x * q0 x) (inject_Z d * (q1 x * q1 x))))
    || (negb (Qle_bool (q1 x) 0) && negb (Qle_bool (inject_Z d * (q1 x * q1 x)) (q0 x * q0 x))).
  Lemma Q_neg_le a b : negb (Qle_bool a b) = true -> Q2R b < Q2R a.
  Proof. intros H. apply negb_true_iff in H. apply Qlt_Rlt. apply Qnot_le_lt. intros K. apply Qle_bool_iff in K. congruence. Qed.
  Lemma q_pos_R x : q_pos x = true -> 0 < toR d x.
  Proof.
    unfold q_pos, toR. pose proof (sqrt_pos (IZR d)) as Hs. pose proof (sqrt_d d d_nonneg) as Hd. set (r := sqrt (IZR d)) in * .
    intros H. apply orb_true_iff in H. destruct H as [H|H]; apply andb_true_iff in H; destruct H as [H1 H2]; apply Q_neg_le in H1, H2;
      rewrite !Q2R_mult, Q2R_inj in H2; rewrite <- Hd in H2; replace (Q2R 0) with 0 in H1 by (unfold Q2R; simpl; lra); set (u := Q2R (q0 x)) in *; set (v := Q2R (q1 x)) in * .
    - assert (Hk : (v * r) * (v * r) < u * u) by (replace ((v * r) * (v * r)) with (r * r * (v * v)) by ring; exact H2).
      destruct (Rle_dec 0 (v * r)); [lra|]. assert (- (v * r) < u); [|lra]. apply Rsqr_incrst_0; unfold Rsqr; lra.
    - assert (Hk : u * u < (v * r) * (v * r)) by (replace ((v * r) * (v * r)) with (r * r * (v * v)) by ring; exact H2).
      assert (0 <= v * r) by (apply Rmult_le_pos; lra). destruct (Rle_dec 0 u) as [Hu|Hu].
      + assert (0 <= v * r) by lra. destruct (Req_dec (v * r) 0) as [E|E]; [rewrite E in Hk; pose proof (Rle_0_sqr u); unfold Rsqr in *; lra|lra].
      + assert (- u < v * r); [|lra]. apply Rsqr_incrst_0; unfold Rsqr; lra.
  Qed.

  Variables (x : solver_coeffs qs) (s : nat).
  Definition qa (i j : nat) : qs := nth j (nth i (rows_of (sc_A x)) []) qs0.
  Definition qb (i : nat) : qs := nth i (sc_b x) qs0.
  Definition q_alg (i j : nat) : qs := qs_sub (qs_add (qs_mul d (qb i) (qa i j)) (qs_mul d (qb j) (qa j i))) (qs_mul d (qb i) (qb j)).
  Definition q_alg_rows : list (list qs) := map (fun i => map (q_alg i) (seq 0 s)) (seq 0 s).
  (** the matrix has rank one and a positive diagonal entry *)
  Definition rank_one (k : nat) (M : list (list qs)) : bool :=
    q_pos (q_entry M k k) &&
    forallb (fun i => forallb (fun j => qs_eqb (qs_mul d (q_entry M k k) (q_entry M i j)) (qs_mul d (q_entry M k i) (q_entry M k j))) (seq 0 s)) (seq 0 s).
  Fixpoint q_obs (m : nat) : list qs :=
    match m with O => map qb (seq 0 s) | S m => let r := q_obs m in map (fun k => fold_right (fun i acc => qs_add (qs_mul d (nth i r qs0) (qa i k)) acc) qs0 (seq 0 s)) (seq 0 s) end.
  Definition q_obs_rows : list (list qs) := map q_obs (seq 0 s).
  Definition stable_check (k : nat) : bool :=
    (0 <? s)%nat && dims_ok x s && forallb (fun i => q_pos (qb i)) (seq 0 s) && (k <? s)%nat && rank_one k q_alg_rows &&
    inverse_check d s q_obs_rows (gauss_inverse d s q_obs_rows) && forallb (fun j => qs_eqb (qa (s - 1) j) (qb j)) (seq 0 s) &&
    (q_zero (sc_gamma x) || q_pos (sc_gamma x)).

  Lemma nth_map_seq {A} (g : nat -> A) i dflt : (i < s)%nat -> nth i (map g (seq 0 s)) dflt = g i.
  Proof. intros Hi. rewrite (nth_indep _ dflt (g 0%nat)) by (rewrite map_length, seq_length; exact Hi). rewrite map_nth, seq_nth by exact Hi. reflexivity. Qed.

  Variable r : solver_coeffs R.
  Hypothesis Hm : sc_match d x r.

  Lemma stable_checked k : stable_check k = true ->
    (0 < s)%nat /\ length (sc_b r) = s /\ alg_stable s (mfun (sc_A r)) (vfun (sc_b r)) /\ observable s (mfun (sc_A r)) (vfun (sc_b r)) /\
    (forall j, (j < s)%nat -> mfun (sc_A r) (s - 1)%nat j = vfun (sc_b r) j) /\ 0 <= sc_gamma r.
  Proof.
    unfold stable_check. rewrite !andb_true_iff. intros [[[[[[[C1 C2] C3] C4] C5] C6] C7] C8]. apply Nat.ltb_lt in C1, C4.
    assert (Ha : forall i j, (i < s)%nat -> (j < s)%nat -> mfun (sc_A r) i j = toR d (qa i j)) by (intros; apply (tab_a d x r s Hm C2); assumption).
    assert (Hb : forall i, vfun (sc_b r) i = toR d (qb i)) by (intros i; unfold vfun; rewrite (m_b _ _ _ Hm); apply tab_v).
    assert (Hlen : length (sc_b r) = s) by (rewrite (m_b _ _ _ Hm), map_length; exact (proj1 (dims_facts x s C2))).
    rewrite forallb_forall in C3, C7. split; [exact C1|]. split; [exact Hlen|]. split; [split|].
    - intros i Hi. rewrite Hb. apply q_pos_R, C3, in_seq. lia.
    - apply andb_true_iff in C5. destruct C5 as [P1 P2]. apply q_pos_R in P1. rewrite forallb_forall in P2.
      set (M := fun i j => toR d (q_entry q_alg_rows i j)).
      assert (HM : forall i j, (i < s)%nat -> (j < s)%nat -> alg_matrix (mfun (sc_A r)) (vfun (sc_b r)) i j = M i j).
      { intros i j Hi Hj. unfold M, q_entry, q_alg_rows. rewrite !nth_map_seq by assumption. unfold q_alg, alg_matrix. rewrite !Hb, !Ha by assumption.
        rewrite toR_sub, toR_add, !toR_mul by exact d_nonneg. reflexivity. }
      assert (H1 : forall i j, (i < s)%nat -> (j < s)%nat -> M k k * M i j = M k i * M k j).
      { intros i j Hi Hj. specialize (P2 i ltac:(apply in_seq; lia)). rewrite forallb_forall in P2. specialize (P2 j ltac:(apply in_seq; lia)). apply (toR_eqb d) in P2. rewrite !toR_mul in P2 by exact d_nonneg. exact P2. }
      intros z. rewrite (Rsum_ext s _ (fun i => Rsum s (fun j => M i j * (z i * z j)))) by (intros; apply Rsum_ext; intros; rewrite HM by assumption; reflexivity).
      apply Rmult_le_reg_l with (M k k); [exact P1|]. rewrite Rmult_0_r, <- Rsum_scal.
      rewrite (Rsum_ext s _ (fun i => M k i * z i * Rsum s (fun j => M k j * z j))).
      + rewrite Rsum_scal_r. apply Rle_0_sqr.
      + intros i Hi. rewrite <- !Rsum_scal. apply Rsum_ext. intros j Hj. rewrite <- Rmult_assoc, H1 by assumption. ring.
    - assert (Hobs : forall m k, (k < s)%nat -> obs_row s (mfun (sc_A r)) (vfun (sc_b r)) m k = toR d (nth k (q_obs m) qs0)).
      { induction m as [|m IH]; intros l Hl; cbn [obs_row q_obs]; [rewrite nth_map_seq by exact Hl; apply Hb|]. rewrite nth_map_seq by exact Hl.
        rewrite (Rsum_ext s _ (fun i => toR d (nth i (q_obs m) qs0) * toR d (qa i l))) by (intros i Hi; rewrite IH, Ha by assumption; reflexivity).
        pose proof (Rsum_fold (fun i => toR d (nth i (q_obs m) qs0) * toR d (qa i l)) s 0) as E. cbn [Nat.add] in E. rewrite <- E. clear E.
        clear C3 C7. induction (seq 0 s) as [|i l' IHl]; cbn [fold_right]; [symmetry; apply toR_0|]. rewrite toR_add, toR_mul, <- IHl by exact d_nonneg. reflexivity. }
      split.
      + exists (fun i j => toR d (q_entry (gauss_inverse d s q_obs_rows) i j)). intros i j Hi Hj. destruct (inverse_checked d d_nonneg s _ _ C6 i j Hi Hj) as [_ E]. rewrite <- E.
        apply Rsum_ext. intros m Hm'. f_equal. rewrite Hobs by exact Hj. unfold q_entry, q_obs_rows. rewrite nth_map_seq by exact Hm'. reflexivity.
      + split.
        * intros j Hj. rewrite Ha, Hb by lia. apply toR_eqb, C7, in_seq. lia.
        * rewrite (m_gamma _ _ _ Hm). apply orb_true_iff in C8. destruct C8 as [C|C]; [apply (toR_eqb d) in C; rewrite C, toR_0; lra|left; apply q_pos_R, C].
  Qed.
End Check.

Record stable_table (sc : solver_coeffs R) : Prop := {
  st_stages : (0 < length (sc_b sc))%nat;
  st_alg : alg_stable (length (sc_b sc)) (mfun (sc_A sc)) (vfun (sc_b sc));
  st_obs : observable (length (sc_b sc)) (mfun (sc_A sc)) (vfun (sc_b sc));
  st_last : forall j, (j < length (sc_b sc))%nat -> mfun (sc_A sc) (length (sc_b sc) - 1)%nat j = vfun (sc_b sc) j;
  st_gamma : 0 <= sc_gamma sc
}.
Lemma stable_intro d x s k r : (0 <= d)%Z -> sc_match d x r -> stable_check d x s k = true -> stable_table r.
Proof. intros Hd Hm Hc. destruct (stable_checked d Hd x s r Hm k Hc) as (H1 & H2 & H3 & H4 & H5 & H6). split; rewrite ?H2; assumption. Qed.

Lemma last_weight_of d x s r w : sc_match d x r -> length (sc_b x) = S s -> toR d (nth s (sc_b x) qs0) = w -> vfun (sc_b r) (length (sc_b r) - 1)%nat = w.
Proof. intros Hm Hl <-. rewrite (m_b _ _ _ Hm), map_length, Hl. replace (S s - 1)%nat with s by lia. apply tab_v. Qed.

Lemma closed_stable `{Env R} m w sc : In (m, w) last_weights -> irk_get_coefficients (T := R) m = Ok sc -> stable_table sc /\ vfun (sc_b sc) (length (sc_b sc) - 1)%nat = w.
Proof.
  unfold last_weights. cbn [In]. intros Hi Hg.
  destruct match_r32 as (s1 & E1 & M1). destruct match_r53 as (s2 & E2 & M2).
  destruct match_c43 as (s5 & E5 & M5). destruct match_c64 as (s6 & E6 & M6). destruct match_c85 as (s7 & E7 & M7).
  destruct Hi as [Hi|[Hi|[Hi|[Hi|[Hi|[]]]]]]; injection Hi as <- <-.
  - rewrite (irk_get_det _ _ _ Hg E1). split; [eapply (stable_intro _ _ 2%nat 0%nat); [|exact M1|vm_compute; reflexivity]; lia|]. apply (last_weight_of _ _ 1%nat _ _ M1); [reflexivity|]. 
    match goal with |- toR _ ?q = _ => let v := eval vm_compute in q in change (toR 2 v = 1 / 4) end. unfold toR, Q2R. simpl. lra.
  - rewrite (irk_get_det _ _ _ Hg E2). split; [eapply (stable_intro _ _ 3%nat 0%nat); [|exact M2|vm_compute; reflexivity]; lia|]. apply (last_weight_of _ _ 2%nat _ _ M2); [reflexivity|].
    match goal with |- toR ?d ?q = _ => let v := eval vm_compute in q in change (toR d v = 1 / 9) end. unfold toR, Q2R. simpl. lra.
  - rewrite (irk_get_det _ _ _ Hg E5). split; [eapply (stable_intro _ _ 3%nat 0%nat); [|exact M5|vm_compute; reflexivity]; lia|]. apply (last_weight_of _ _ 2%nat _ _ M5); [reflexivity|].
    match goal with |- toR ?d ?q = _ => let v := eval vm_compute in q in change (toR d v = 1 / 6) end. unfold toR, Q2R. simpl. lra.
  - rewrite (irk_get_det _ _ _ Hg E6). split; [eapply (stable_intro _ _ 4%nat 0%nat); [|exact M6|vm_compute; reflexivity]; lia|]. apply (last_weight_of _ _ 3%nat _ _ M6); [reflexivity|].
    match goal with |- toR ?d ?q = _ => let v := eval vm_compute in q in change (toR d v = 1 / 12) end. unfold toR, Q2R. simpl. lra.
  - rewrite (irk_get_det _ _ _ Hg E7). split; [eapply (stable_intro _ _ 5%nat 0%nat); [|exact M7|vm_compute; reflexivity]; lia|]. apply (last_weight_of _ _ 4%nat _ _ M7); [reflexivity|].
    match goal with |- toR ?d ?q = _ => let v := eval vm_compute in q in change (toR d v = 1 / 20) end. unfold toR, Q2R. simpl. lra.
Qed.
