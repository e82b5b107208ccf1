(** Order conditions of the implicit tableaux. *)
From Coq Require Import QArith Qreals Qabs Reals Lra.
From Verif Require Import Model.Base Model.Scalar Model.LinAlg Model.Enums Model.Coeffs Model.Collocation Model.IrkCoeffs.
From Verif Require Import Spec.Sums Spec.Trees Spec.Methods Proofs.SumsProofs Proofs.TreesProofs Proofs.QuadField Proofs.OrderProofs.
From Verif Require Import Proofs.CoeffsProofs Proofs.TablesGeneric Proofs.IrkCoeffsProofs.
Local Open Scope R_scope.

(** ** Approximate conditions on rational tableaux, over a common denominator *)
Section Approx.
  Variables (eps : Z) (x : solver_coeffs qs) (r : solver_coeffs R) (s : nat).
  Hypothesis eps_pos : (0 <? eps)%Z = true.
  Hypothesis Hm : sc_match 2 x r.
  Hypothesis Hd : dims_ok x s = true.

  Definition mom_den : Z := common_den (concat (rows_of (sc_A x)) ++ sc_b x ++ sc_c x).
  Definition mom_scaled (D : Z) : bool :=
    scaled (rows_of (sc_A x)) (sc_b x) D && forallb (scale_ok D) (sc_c x).

  Lemma mom_b D : mom_scaled D = true -> forall i, (i < s)%nat -> zR 2 (nth i (map (scale D) (sc_b x)) zs0) = IZR D * vfun (sc_b r) i.
  Proof.
    unfold mom_scaled. rewrite andb_true_iff. intros [H _]. destruct (dims_facts x s Hd) as (L1 & _).
    apply (scaled_facts 2 s (rows_of (sc_A x)) (rows_len x s Hd) (rows_each x s Hd) _ (tab_a 2 x r s Hm Hd) (sc_b x) L1).
    - intros i Hi. unfold vfun. rewrite (m_b _ _ _ Hm). apply tab_v.
    - exact H.
  Qed.
  Lemma mom_a D : mom_scaled D = true -> forall i j, (i < s)%nat -> (j < s)%nat ->
    zR 2 (nth j (nth i (map (map (scale D)) (rows_of (sc_A x))) []) zs0) = IZR D * mfun (sc_A r) i j.
  Proof.
    unfold mom_scaled. rewrite andb_true_iff. intros [H _]. destruct (dims_facts x s Hd) as (L1 & _).
    apply (scaled_facts 2 s (rows_of (sc_A x)) (rows_len x s Hd) (rows_each x s Hd) _ (tab_a 2 x r s Hm Hd) (sc_b x) L1) with (b := vfun (sc_b r)).
    - intros i Hi. unfold vfun. rewrite (m_b _ _ _ Hm). apply tab_v.
    - exact H.
  Qed.
  Lemma mom_c D : mom_scaled D = true -> forall i, (i < s)%nat -> zR 2 (nth i (map (scale D) (sc_c x)) zs0) = IZR D * vfun (sc_c r) i.
  Proof.
    unfold mom_scaled. rewrite andb_true_iff, forallb_forall. intros [_ H] i Hi. destruct (dims_facts x s Hd) as (_ & L2 & _).
    rewrite (nth_indep _ zs0 (scale D qs0)) by (rewrite map_length; lia). rewrite map_nth.
    rewrite scale_R by (apply H, nth_In; lia). unfold vfun. rewrite (m_c _ _ _ Hm), tab_v. reflexivity.
  Qed.
  Lemma mom_pos D : mom_scaled D = true -> (0 < D)%Z.
  Proof. unfold mom_scaled, scaled. rewrite !andb_true_iff, Z.ltb_lt. tauto. Qed.

  (** [k m - y] compared with [k D^k / eps], m and y rational *)
  Definition z_close (k : nat) (D : Z) (m y : zs) : bool :=
    (z1 m =? 0)%Z && (z1 y =? 0)%Z &&
    (Z.abs (Z.of_nat k * z0 m - z0 y) * eps <=? Z.of_nat k * D ^ Z.of_nat k)%Z.
  Lemma z_close_ok k D m y u v : (0 < D)%Z -> (1 <= k)%nat -> z_close k D m y = true ->
    zR 2 m = IZR D ^ k * u -> zR 2 y = IZR D ^ k * v -> Rabs (u - v / INR k) <= 1 / IZR eps.
  Proof.
    intros HD Hk. unfold z_close. rewrite !andb_true_iff, !Z.eqb_eq, Z.leb_le. intros [[H1 H2] H3] Hu Hv.
    unfold zR in Hu, Hv. rewrite H1 in Hu. rewrite H2 in Hv. rewrite Rmult_0_l, Rplus_0_r in Hu, Hv.
    apply IZR_le in H3. rewrite !mult_IZR, abs_IZR, minus_IZR, mult_IZR, <- pow_IZR, <- !INR_IZR_INZ, Hu, Hv in H3.
    apply Z.ltb_lt, IZR_lt in eps_pos. pose proof (pow_lt (IZR D) k (IZR_lt 0 D HD)) as HP.
    assert (Hkr : 0 < INR k) by (apply lt_0_INR; lia).
    replace (INR k * (IZR D ^ k * u) - IZR D ^ k * v) with ((INR k * IZR D ^ k) * (u - v / INR k)) in H3 by (field; lra).
    rewrite Rabs_mult, Rabs_pos_eq in H3 by nra.
    assert (Hc : 0 < INR k * IZR D ^ k) by nra.
    apply (Rmult_le_reg_l (INR k * IZR D ^ k)); [exact Hc|]. apply (Rmult_le_reg_r (IZR eps)); [exact eps_pos|].
    replace (INR k * IZR D ^ k * (1 / IZR eps) * IZR eps) with (INR k * IZR D ^ k) by (field; lra). exact H3.
  Qed.

  Definition B_check (p : nat) : bool :=
    let D := mom_den in mom_scaled D &&
    let zb := map (scale D) (sc_b x) in
    let zc := map (scale D) (sc_c x) in
    forallb (fun k => z_close k D (zmoment 2 zb zc (k - 1)) (ZS (D ^ Z.of_nat k) 0)) (seq 1 p).
  Lemma B_ok p : B_check p = true -> B_within (1 / IZR eps) s (vfun (sc_b r)) (vfun (sc_c r)) p.
  Proof.
    intros H k Hk. unfold B_check in H. cbv zeta in H. rewrite andb_true_iff, forallb_forall in H. destruct H as [HD H].
    specialize (H k ltac:(apply in_seq; lia)). destruct (dims_facts x s Hd) as (H1 & H2 & _).
    eapply (z_close_ok k mom_den _ _ _ 1); [apply mom_pos, HD|lia|exact H| |].
    - rewrite (zmoment_R 2 ltac:(lia) s mom_den) with (b := vfun (sc_b r)) (c := vfun (sc_c r));
        [|rewrite map_length; assumption|apply mom_b, HD|rewrite map_length; assumption|apply mom_c, HD].
      replace (S (k - 1)) with k by lia. reflexivity.
    - unfold zR. cbn [z0 z1]. rewrite <- pow_IZR. ring.
  Qed.

  Definition C_check (q : nat) : bool :=
    let D := mom_den in mom_scaled D &&
    let zr := map (map (scale D)) (rows_of (sc_A x)) in
    let zc := map (scale D) (sc_c x) in
    forallb (fun k => forallb (fun i => z_close k D (zmoment 2 (nth i zr []) zc (k - 1)) (zpow 2 (nth i zc zs0) k))
                              (seq 0 s)) (seq 1 q).
  Lemma C_ok q : C_check q = true -> C_within (1 / IZR eps) s (mfun (sc_A r)) (vfun (sc_c r)) q.
  Proof.
    intros H k i Hk Hi. unfold C_check in H. cbv zeta in H. rewrite andb_true_iff, forallb_forall in H. destruct H as [HD H].
    specialize (H k ltac:(apply in_seq; lia)). rewrite forallb_forall in H. specialize (H i ltac:(apply in_seq; lia)).
    destruct (dims_facts x s Hd) as (H1 & H2 & _).
    eapply (z_close_ok k mom_den _ _ _ (vfun (sc_c r) i ^ k)); [apply mom_pos, HD|lia|exact H| |].
    - rewrite (zmoment_R 2 ltac:(lia) s mom_den) with (b := mfun (sc_A r) i) (c := vfun (sc_c r)).
      + replace (S (k - 1)) with k by lia. reflexivity.
      + rewrite (nth_map (map (scale mom_den)) _ i [] []) by reflexivity. rewrite map_length.
        apply (rows_each x s Hd), nth_In. rewrite (rows_len x s Hd). exact Hi.
      + intros j Hj. apply mom_a; assumption.
      + rewrite map_length; assumption.
      + apply mom_c, HD.
    - rewrite zR_pow, mom_c, Rpow_mult_distr by (try assumption; lia). reflexivity.
  Qed.

  (** the condition B(k) fails by more than 1/eps *)
  Definition B_fail (k : nat) : bool :=
    let D := mom_den in mom_scaled D &&
    let m := zmoment 2 (map (scale D) (sc_b x)) (map (scale D) (sc_c x)) (k - 1) in
    (z1 m =? 0)%Z && (Z.of_nat k * D ^ Z.of_nat k <? Z.abs (Z.of_nat k * z0 m - D ^ Z.of_nat k) * eps)%Z.
  Lemma B_fail_ok k : (1 <= k)%nat -> B_fail k = true ->
    Rabs (Rsum s (fun i => vfun (sc_b r) i * vfun (sc_c r) i ^ (k - 1)) - 1 / INR k) > 1 / IZR eps.
  Proof.
    intros Hk. unfold B_fail. cbv zeta. rewrite !andb_true_iff, Z.eqb_eq, Z.ltb_lt. intros [HD [H1 H3]].
    destruct (dims_facts x s Hd) as (L1 & L2 & _).
    pose proof (zmoment_R 2 ltac:(lia) s mom_den (map (scale mom_den) (sc_b x)) ltac:(rewrite map_length; assumption) (vfun (sc_b r))
                 (mom_b _ HD) (map (scale mom_den) (sc_c x)) ltac:(rewrite map_length; assumption) (vfun (sc_c r)) (mom_c _ HD) (k - 1)) as Hu.
    unfold zR in Hu. rewrite H1, Rmult_0_l, Rplus_0_r in Hu. replace (S (k - 1)) with k in Hu by lia.
    set (u := Rsum s (fun j => vfun (sc_b r) j * vfun (sc_c r) j ^ (k - 1))) in * .
    apply IZR_lt in H3. rewrite !mult_IZR, abs_IZR, minus_IZR, mult_IZR, <- !pow_IZR, <- !INR_IZR_INZ, Hu in H3.
    apply Z.ltb_lt, IZR_lt in eps_pos. pose proof (pow_lt (IZR mom_den) k (IZR_lt 0 _ (mom_pos _ HD))) as HP.
    assert (Hkr : 0 < INR k) by (apply lt_0_INR; lia).
    replace (INR k * (IZR mom_den ^ k * u) - IZR mom_den ^ k) with ((INR k * IZR mom_den ^ k) * (u - 1 / INR k)) in H3 by (field; lra).
    rewrite Rabs_mult, Rabs_pos_eq in H3 by nra.
    assert (Hc : 0 < INR k * IZR mom_den ^ k) by nra.
    apply Rlt_gt. apply (Rmult_lt_reg_l (INR k * IZR mom_den ^ k)); [exact Hc|]. apply (Rmult_lt_reg_r (IZR eps)); [exact eps_pos|].
    replace (INR k * IZR mom_den ^ k * (1 / IZR eps) * IZR eps) with (INR k * IZR mom_den ^ k) by (field; lra). exact H3.
  Qed.
End Approx.

(** ** The closed-form methods *)
Record irk_facts (m : Z) (sc : solver_coeffs R) (s p : nat) : Prop := {
  if_dims : dims_ok sc s = true;
  if_rows : forall i, (i < s)%nat -> Rsum s (fun j => mentry (sc_A sc) i j) = ventry (sc_c sc) i;
  if_order : sc_order sc = Some (Z.of_nat p);
  if_exact : exact_order s (mfun (sc_A sc)) (vfun (sc_b sc)) p
}.

Lemma irk_facts_intro d m x r s p t : (0 <=? d)%Z = true ->
  sc_match d x r -> dims_ok x s = true -> row_check_exact x s = true ->
  sc_order x = Some (Z.of_nat p) -> order_check_le d x s (sc_b x) p = true -> vertices t = S p ->
  order_fail d x s (sc_b x) t = true -> irk_facts m r s p.
Proof.
  intros H0 Hm Hd Hr Ho Hc Hv Hf. apply Z.leb_le in H0. constructor.
  - eapply dims_match; eassumption.
  - eapply row_check_exact_ok; eassumption.
  - rewrite (m_order _ _ _ Hm). exact Ho.
  - eapply (tab_exact d x r s H0 Hm Hd (sc_b x)); [apply (m_b _ _ _ Hm)|eassumption..].
Qed.

Lemma ifacts_ie m r (H : sc_match 2 q_ie r) : irk_facts m r 1 1.
Proof. exact (irk_facts_intro 2 m q_ie r 1 1 (bushy 2) eq_refl H
  ltac:(vm_compute; reflexivity) ltac:(vm_compute; reflexivity) eq_refl ltac:(vm_compute; reflexivity) eq_refl ltac:(vm_compute; reflexivity)). Qed.
Lemma ifacts_l43 m r (H : sc_match 2 q_l43 r) : irk_facts m r 3 4.
Proof. exact (irk_facts_intro 2 m q_l43 r 3 4 (bushy 5) eq_refl H
  ltac:(vm_compute; reflexivity) ltac:(vm_compute; reflexivity) eq_refl ltac:(vm_compute; reflexivity) eq_refl ltac:(vm_compute; reflexivity)). Qed.
Lemma ifacts_c43 m r (H : sc_match 2 q_c43 r) : irk_facts m r 3 4.
Proof. exact (irk_facts_intro 2 m q_c43 r 3 4 (bushy 5) eq_refl H
  ltac:(vm_compute; reflexivity) ltac:(vm_compute; reflexivity) eq_refl ltac:(vm_compute; reflexivity) eq_refl ltac:(vm_compute; reflexivity)). Qed.
Lemma ifacts_c64 m r (H : sc_match 5 q_c64 r) : irk_facts m r 4 6.
Proof. exact (irk_facts_intro 5 m q_c64 r 4 6 (bushy 7) eq_refl H
  ltac:(vm_compute; reflexivity) ltac:(vm_compute; reflexivity) eq_refl ltac:(vm_compute; reflexivity) eq_refl ltac:(vm_compute; reflexivity)). Qed.
Lemma ifacts_g42 m r (H : sc_match 3 q_g42 r) : irk_facts m r 3 4.
Proof. exact (irk_facts_intro 3 m q_g42 r 3 4 (bushy 5) eq_refl H
  ltac:(vm_compute; reflexivity) ltac:(vm_compute; reflexivity) eq_refl ltac:(vm_compute; reflexivity) eq_refl ltac:(vm_compute; reflexivity)). Qed.
Lemma ifacts_r32 m r (H : sc_match 2 q_r32 r) : irk_facts m r 2 3.
Proof. exact (irk_facts_intro 2 m q_r32 r 2 3 (bushy 4) eq_refl H
  ltac:(vm_compute; reflexivity) ltac:(vm_compute; reflexivity) eq_refl ltac:(vm_compute; reflexivity) eq_refl ltac:(vm_compute; reflexivity)). Qed.
Lemma ifacts_r53 m r (H : sc_match 6 q_r53 r) : irk_facts m r 3 5.
Proof. exact (irk_facts_intro 6 m q_r53 r 3 5 (bushy 6) eq_refl H
  ltac:(vm_compute; reflexivity) ltac:(vm_compute; reflexivity) eq_refl ltac:(vm_compute; reflexivity) eq_refl ltac:(vm_compute; reflexivity)). Qed.

(** ** The decimal methods: B(p), C(q) up to eps16 = 1e-16, and B(p+1) fails by more than 1e-9 *)
Definition eps16 : Z := 10000000000000000.
Definition eps9 : Z := 1000000000.

Record dec_facts (sc : solver_coeffs R) (s p : nat) : Prop := {
  df_dims : dims_ok sc s = true;
  df_B : B_within (1 / IZR eps16) s (vfun (sc_b sc)) (vfun (sc_c sc)) p;
  df_C : C_within (1 / IZR eps16) s (mfun (sc_A sc)) (vfun (sc_c sc)) s;
  df_fail : Rabs (Rsum s (fun i => vfun (sc_b sc) i * vfun (sc_c sc) i ^ (S p - 1)) - 1 / INR (S p)) > 1 / IZR eps9
}.
Lemma dec_facts_intro x r s p : sc_match 2 x r -> dims_ok x s = true -> B_check eps16 x p = true ->
  C_check eps16 x s s = true -> B_fail eps9 x (S p) = true -> dec_facts r s p.
Proof.
  intros Hm Hd HB HC HF. constructor.
  - eapply dims_match; eassumption.
  - eapply B_ok; eauto.
  - eapply C_ok; eauto.
  - eapply B_fail_ok; eauto; lia.
Qed.
Lemma dfacts_r95 r (H : sc_match 2 q_r95 r) : dec_facts r 5 9.
Proof. exact (dec_facts_intro q_r95 r 5 9 H eq_refl ltac:(vm_compute; reflexivity) ltac:(vm_compute; reflexivity) ltac:(vm_compute; reflexivity)). Qed.
Lemma dfacts_r137 r (H : sc_match 2 q_r137 r) : dec_facts r 7 13.
Proof. exact (dec_facts_intro q_r137 r 7 13 H eq_refl ltac:(vm_compute; reflexivity) ltac:(vm_compute; reflexivity) ltac:(vm_compute; reflexivity)). Qed.
Lemma dfacts_g147 r (H : sc_match 2 q_g147 r) : dec_facts r 7 14.
Proof. exact (dec_facts_intro q_g147 r 7 14 H eq_refl ltac:(vm_compute; reflexivity) ltac:(vm_compute; reflexivity) ltac:(vm_compute; reflexivity)). Qed.
Lemma dfacts_l127 r (H : sc_match 2 q_l127 r) : dec_facts r 7 12.
Proof. exact (dec_facts_intro q_l127 r 7 12 H eq_refl ltac:(vm_compute; reflexivity) ltac:(vm_compute; reflexivity) ltac:(vm_compute; reflexivity)). Qed.
