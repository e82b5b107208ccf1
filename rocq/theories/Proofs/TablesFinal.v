(** Collected facts about the coefficient tables, in the form used by the property theorems. *)
From Coq Require Import QArith Qreals Reals Lra.
From Verif Require Import Model.Base Model.Scalar Model.LinAlg Model.Enums Model.Coeffs Model.Collocation Model.ErkCoeffs Model.IrkCoeffs.
From Verif Require Import Spec.Sums Spec.Trees Spec.Methods Proofs.SumsProofs Proofs.QuadField Proofs.OrderProofs Proofs.CoeffsProofs.
From Verif Require Import Proofs.ErkCoeffsProofs Proofs.TablesGeneric Proofs.IrkCoeffsProofs Proofs.IrkFacts Proofs.IrkFactsC85.
From Verif Require Import Proofs.IrkEmbedded Proofs.DenseProofs Proofs.CollocationGeneric.
Local Open Scope R_scope.

(** ** Explicit methods *)
Lemma erk_orders m p p2 : In (m, p, p2) explicit_orders -> exists sc s, erk_facts m sc s p p2.
Proof.
  unfold explicit_orders. simpl. intros H.
  destruct H as [H|[H|[H|[H|[H|[H|[]]]]]]]; injection H as <- <- <-.
  - destruct facts_euler as [r Hr]; eauto.
  - destruct facts_rk4 as [r Hr]; eauto.
  - destruct facts_bs as [r Hr]; eauto.
  - destruct facts_ck as [r Hr]; eauto.
  - destruct facts_dp as [r Hr]; eauto.
  - destruct facts_fb as [r Hr]; eauto.
Qed.

Lemma erk_facts_any m : In m explicit_methods -> exists sc s p p2, erk_facts m sc s p p2.
Proof.
  unfold explicit_methods. simpl. intros [<-|[<-|[<-|[<-|[<-|[<-|[]]]]]]].
  - destruct facts_euler as [r Hr]; eauto.
  - destruct facts_rk4 as [r Hr]; eauto.
  - destruct facts_bs as [r Hr]; eauto 6.
  - destruct facts_ck as [r Hr]; eauto 6.
  - destruct facts_dp as [r Hr]; eauto 6.
  - destruct facts_fb as [r Hr]; eauto 6.
Qed.

(** FSAL: the last row of A is b, the first row is 0 *)
Definition fsal_check (x : solver_coeffs qs) (s : nat) : bool :=
  forallb (fun j => qs_eqb (nth j (nth (s - 1) (rows_of (sc_A x)) []) qs0) (nth j (sc_b x) qs0) &&
                    qs_eqb (nth j (nth 0 (rows_of (sc_A x)) []) qs0) qs0) (seq 0 s).
Definition is_fsal (sc : solver_coeffs R) (s : nat) : Prop :=
  (forall j, (j < s)%nat -> mentry (sc_A sc) (s - 1) j = ventry (sc_b sc) j) /\
  (forall j, (j < s)%nat -> mentry (sc_A sc) 0 j = 0).
Lemma fsal_check_ok d x r s : sc_match d x r -> dims_ok x s = true -> (0 < s)%nat -> fsal_check x s = true -> is_fsal r s.
Proof.
  intros Hm Hd Hs H. unfold fsal_check in H. rewrite forallb_forall in H. split; intros j Hj.
  - specialize (H j ltac:(apply in_seq; lia)). rewrite andb_true_iff in H. destruct H as [H _].
    apply (toR_eqb d) in H. rewrite (tab_a d x r s Hm Hd) by lia. rewrite H, (m_b _ _ _ Hm). symmetry. apply tab_v.
  - specialize (H j ltac:(apply in_seq; lia)). rewrite andb_true_iff in H. destruct H as [_ H].
    apply (toR_eqb d) in H. rewrite (tab_a d x r s Hm Hd) by lia. rewrite H. apply toR_0.
Qed.

Lemma erk_get_det m sc sc' : erk_get_coefficients (T := R) m = Ok sc -> erk_table m = Ok sc' -> sc = sc'.
Proof. unfold erk_get_coefficients. intros H Ht. rewrite Ht in H. cbn [rbind] in H. destruct (coeff_warnings sc'); [|discriminate]. injection H as <-. reflexivity. Qed.

Lemma erk_fsal m sc : In m explicit_methods -> erk_get_coefficients (T := R) m = Ok sc ->
  (sc_FSAL sc = true <-> In m explicit_fsal) /\ (sc_FSAL sc = true -> is_fsal sc (length (sc_b sc))).
Proof.
  intros Hi Hg. simpl in Hi.
  destruct Hi as [<-|[<-|[<-|[<-|[<-|[<-|[]]]]]]].
  - rewrite (erk_get_det _ _ _ Hg eq_refl). simpl. split; [|discriminate]. unfold BOGACKI_SHAMPINE_32, DORMAND_PRINCE_54, EXPLICIT_EULER. intuition lia.
  - rewrite (erk_get_det _ _ _ Hg eq_refl). simpl. split; [|discriminate]. unfold BOGACKI_SHAMPINE_32, DORMAND_PRINCE_54, RUNGE_KUTTA_4. intuition lia.
  - destruct match_bs as (r & Ht & Hm). rewrite (erk_get_det _ _ _ Hg Ht). split.
    + rewrite (m_FSAL _ _ _ Hm). simpl. intuition.
    + intros _. rewrite (m_b _ _ _ Hm), map_length. apply (fsal_check_ok 2 q_bs r 4 Hm); [reflexivity|lia|vm_compute; reflexivity].
  - rewrite (erk_get_det _ _ _ Hg eq_refl). simpl. split; [|discriminate]. unfold BOGACKI_SHAMPINE_32, DORMAND_PRINCE_54, CASH_KARP_54. intuition lia.
  - destruct match_dp as (r & Ht & Hm). rewrite (erk_get_det _ _ _ Hg Ht). split.
    + rewrite (m_FSAL _ _ _ Hm). simpl. intuition.
    + intros _. rewrite (m_b _ _ _ Hm), map_length. apply (fsal_check_ok 2 q_dp r 7 Hm); [reflexivity|lia|vm_compute; reflexivity].
  - rewrite (erk_get_det _ _ _ Hg eq_refl). simpl. split; [|discriminate]. unfold BOGACKI_SHAMPINE_32, DORMAND_PRINCE_54, FEHLBERG_54. intuition lia.
Qed.

Lemma erk_rows m sc : In m explicit_methods -> erk_get_coefficients (T := R) m = Ok sc ->
  coeff_warnings sc = Ok [] /\
  forall i, (i < length (sc_b sc))%nat ->
    Rsum (length (sc_b sc)) (fun j => mentry (sc_A sc) i j) = ventry (sc_c sc) i /\
    forall j, (i <= j < length (sc_b sc))%nat -> mentry (sc_A sc) i j = 0.
Proof.
  intros Hi Hg. destruct (erk_facts_any m Hi) as (sc' & s & p & p2 & [Hg' Hp Hd Hl Hr Ho He Ho2]).
  rewrite Hg in Hg'. injection Hg' as <-.
  assert (Lb : length (sc_b sc) = s).
  { unfold dims_ok in Hd. rewrite !andb_true_iff, !Nat.eqb_eq in Hd. tauto. }
  split.
  - apply (no_warnings sc s Hd). intros i Hi'. rewrite Hr by exact Hi'. rewrite Rminus_diag_eq by reflexivity. rewrite Rabs_R0. lra.
  - rewrite Lb. intros i Hi'. split; [apply Hr, Hi'|]. intros j Hj. apply Hl; lia.
Qed.

Lemma erk_orders_final m p p2 : In (m, p, p2) explicit_orders -> exists sc,
  erk_get_coefficients (T := R) m = Ok sc /\ sc_order sc = Some (Z.of_nat p) /\
  exact_order (length (sc_b sc)) (mfun (sc_A sc)) (vfun (sc_b sc)) p /\
  match p2 with
  | None => sc_b2 sc = [] /\ sc_order2 sc = Some 0%Z
  | Some q => sc_order2 sc = Some (Z.of_nat q) /\ exact_order (length (sc_b2 sc)) (mfun (sc_A sc)) (vfun (sc_b2 sc)) q
  end.
Proof.
  intros H. destruct (erk_orders m p p2 H) as (sc & s & [Hg Hp Hd Hl Hr Ho He Ho2]). exists sc.
  assert (Lb : length (sc_b sc) = s).
  { unfold dims_ok in Hd. rewrite !andb_true_iff, !Nat.eqb_eq in Hd. tauto. }
  rewrite Lb. repeat (split; [assumption|]). destruct p2; [|assumption].
  destruct Ho2 as (H1 & H2 & H3). rewrite H1. auto.
Qed.

Lemma erk_fsal_final m sc : In m explicit_methods -> erk_get_coefficients (T := R) m = Ok sc ->
  (sc_FSAL sc = true <-> In m explicit_fsal) /\
  (sc_FSAL sc = true -> forall j, (j < length (sc_b sc))%nat ->
     mentry (sc_A sc) (length (sc_b sc) - 1) j = ventry (sc_b sc) j /\ mentry (sc_A sc) 0 j = 0).
Proof. intros Hi Hg. destruct (erk_fsal m sc Hi Hg) as [H1 H2]. split; [exact H1|]. intros Hf j Hj. destruct (H2 Hf). auto. Qed.

(** ** Implicit methods *)
Lemma irk_advertised_rejected {T} `{Scalar T} `{Env T} m :
  In m [LOBATTO_IIIA_85; LOBATTO_IIIC_127; GAUSS_LEGENDRE_63; GAUSS_LEGENDRE_105] ->
  In m (map snd irk_methods) /\ exists sc, irk_get_coefficients (T := T) m = Ok sc /\ irk_verify_solver_coeffs sc = false.
Proof.
  intros Hi. split.
  - simpl in Hi. destruct Hi as [<-|[<-|[<-|[<-|[]]]]]; vm_compute; tauto.
  - destruct (irk_accepts (T := T) m) as (sc & Hg & Hv). exists sc. split; [exact Hg|].
    destruct (irk_verify_solver_coeffs sc); [|reflexivity]. destruct Hv as [Hv _]. specialize (Hv eq_refl). exfalso.
    simpl in Hi. destruct Hi as [<-|[<-|[<-|[<-|[]]]]]; vm_compute in Hv; intuition discriminate.
Qed.

Section Irk.
  Context {E : Env R}.

  Lemma irk_get_det m sc sc' : irk_get_coefficients (T := R) m = Ok sc -> irk_table m = Ok sc' -> sc = sc'.
  Proof. unfold irk_get_coefficients. intros H Ht. rewrite Ht in H. cbn [rbind] in H. destruct (coeff_warnings sc'); [|discriminate]. injection H as <-. reflexivity. Qed.
  Lemma irk_get_of_table m sc : irk_table (T := R) m = Ok sc -> irk_get_coefficients m = Ok sc.
  Proof.
    intros Ht. destruct (irk_get_ok (T := R) m) as (sc' & Hg & Ht' & _). rewrite Ht in Ht'. injection Ht' as <-. exact Hg.
  Qed.

  Lemma irk_closed m p : In (m, p) implicit_orders -> exists sc s, irk_get_coefficients (T := R) m = Ok sc /\ irk_facts m sc s p.
  Proof.
    unfold implicit_orders. simpl. intros H.
    destruct H as [H|[H|[H|[H|[H|[H|[H|[H|[]]]]]]]]]; injection H as <- <-.
    - destruct match_ie as (r & Ht & Hm). exists r, 1%nat. split; [apply irk_get_of_table, Ht|]. apply ifacts_ie, Hm.
    - destruct match_r32 as (r & Ht & Hm). exists r, 2%nat. split; [apply irk_get_of_table, Ht|]. apply ifacts_r32, Hm.
    - destruct match_r53 as (r & Ht & Hm). exists r, 3%nat. split; [apply irk_get_of_table, Ht|]. apply ifacts_r53, Hm.
    - destruct match_l43 as (r & Ht & Hm). exists r, 3%nat. split; [apply irk_get_of_table, Ht|]. apply ifacts_l43, Hm.
    - destruct match_c43 as (r & Ht & Hm). exists r, 3%nat. split; [apply irk_get_of_table, Ht|]. apply ifacts_c43, Hm.
    - destruct match_c64 as (r & Ht & Hm). exists r, 4%nat. split; [apply irk_get_of_table, Ht|]. apply ifacts_c64, Hm.
    - destruct match_c85 as (r & Ht & Hm). exists r, 5%nat. split; [apply irk_get_of_table, Ht|]. apply ifacts_c85, Hm.
    - destruct match_g42 as (r & Ht & Hm). exists r, 3%nat. split; [apply irk_get_of_table, Ht|]. apply ifacts_g42, Hm.
  Qed.
  Lemma irk_orders_final m p : In (m, p) implicit_orders -> exists sc,
    irk_get_coefficients (T := R) m = Ok sc /\ sc_order sc = Some (Z.of_nat p) /\
    exact_order (length (sc_b sc)) (mfun (sc_A sc)) (vfun (sc_b sc)) p.
  Proof.
    intros H. destruct (irk_closed m p H) as (sc & s & Hg & [Hd Hr Ho He]). exists sc.
    assert (Lb : length (sc_b sc) = s).
    { unfold dims_ok in Hd. rewrite !andb_true_iff, !Nat.eqb_eq in Hd. tauto. }
    rewrite Lb. auto.
  Qed.

  Lemma irk_decimal_facts m s p : In (m, s, p) decimal_orders -> exists sc, irk_get_coefficients (T := R) m = Ok sc /\ dec_facts sc s p.
  Proof.
    unfold decimal_orders. simpl. intros H.
    destruct H as [H|[H|[H|[H|[]]]]]; injection H as <- <- <-.
    - destruct match_r95 as (r & Ht & Hm). exists r. split; [apply irk_get_of_table, Ht|]. apply dfacts_r95, Hm.
    - destruct match_r137 as (r & Ht & Hm). exists r. split; [apply irk_get_of_table, Ht|]. apply dfacts_r137, Hm.
    - destruct match_g147 as (r & Ht & Hm). exists r. split; [apply irk_get_of_table, Ht|]. apply dfacts_g147, Hm.
    - destruct match_l127 as (r & Ht & Hm). exists r. split; [apply irk_get_of_table, Ht|]. apply dfacts_l127, Hm.
  Qed.
  Lemma irk_decimal_final m s p : In (m, s, p) decimal_orders -> exists sc, irk_get_coefficients (T := R) m = Ok sc /\
    length (sc_b sc) = s /\
    B_within (1 / 10000000000000000) s (vfun (sc_b sc)) (vfun (sc_c sc)) p /\
    C_within (1 / 10000000000000000) s (mfun (sc_A sc)) (vfun (sc_c sc)) s /\
    ~ B_within (1 / 1000000000) s (vfun (sc_b sc)) (vfun (sc_c sc)) (S p).
  Proof.
    intros H. destruct (irk_decimal_facts m s p H) as (sc & Hg & [Hd HB HC HF]). exists sc. split; [exact Hg|].
    split; [unfold dims_ok in Hd; rewrite !andb_true_iff, !Nat.eqb_eq in Hd; tauto|].
    split; [exact HB|]. split; [exact HC|]. intros Hc. specialize (Hc (S p) ltac:(lia)).
    unfold eps9 in HF. apply (Rlt_not_le _ _ HF). exact Hc.
  Qed.

  Lemma irk_rows m sc : In m implicit_methods -> irk_get_coefficients (T := R) m = Ok sc ->
    coeff_warnings sc = Ok [] /\
    (forall i, (i < length (sc_b sc))%nat ->
      Rabs (Rsum (length (sc_b sc)) (fun j => mentry (sc_A sc) i j) - ventry (sc_c sc) i) <= 1 / 10000000000000000) /\
    (In m implicit_closed_form -> forall i, (i < length (sc_b sc))%nat ->
      Rsum (length (sc_b sc)) (fun j => mentry (sc_A sc) i j) = ventry (sc_c sc) i).
  Proof.
    intros Hi Hg.
    assert (G : exists s, dims_ok sc s = true /\
       (forall i, (i < s)%nat -> Rabs (Rsum s (fun j => mentry (sc_A sc) i j) - ventry (sc_c sc) i) <= 1 / 10000000000000000) /\
       (In m implicit_closed_form -> forall i, (i < s)%nat -> Rsum s (fun j => mentry (sc_A sc) i j) = ventry (sc_c sc) i)).
    { destruct (in_dec Z.eq_dec m implicit_closed_form) as [Hc|Hc].
      - assert (Ho : exists p, In (m, p) implicit_orders).
        { unfold implicit_closed_form, implicit_orders in * . simpl in Hc. simpl.
          repeat (destruct Hc as [<-|Hc]; [eexists; tauto|]). contradiction. }
        destruct Ho as [p Ho]. destruct (irk_closed m p Ho) as (sc' & s & Hg' & [Hd Hr _ _]).
        rewrite Hg in Hg'. injection Hg' as <-. exists s. split; [exact Hd|]. split; [|auto].
        intros i Hi'. rewrite Hr by exact Hi'. rewrite Rminus_diag_eq by reflexivity. rewrite Rabs_R0. lra.
      - assert (Ho : exists s p, In (m, s, p) decimal_orders).
        { unfold implicit_methods, implicit_closed_form, decimal_orders in * . simpl in Hi, Hc. simpl.
          repeat (destruct Hi as [<-|Hi]; [try tauto; eexists; eexists; tauto|]). contradiction. }
        destruct Ho as (s & p & Ho). destruct (irk_decimal_facts m s p Ho) as (sc' & Hg' & [Hd HB HC HF]).
        rewrite Hg in Hg'. injection Hg' as <-. exists s. split; [exact Hd|]. split; [|tauto].
        intros i Hi'. destruct (Nat.eq_dec s 0) as [->|Hs]; [lia|].
        specialize (HC 1%nat i ltac:(lia) Hi'). unfold eps16 in HC. simpl (_ ^ _) in HC. simpl (INR 1) in HC.
        eapply Rle_trans; [|exact HC]. right. f_equal. unfold vfun. f_equal; [|field].
        apply Rsum_ext. intros j Hj. unfold mfun. ring. }
    destruct G as (s & Hd & H1 & H2).
    assert (Lb : length (sc_b sc) = s).
    { unfold dims_ok in Hd. rewrite !andb_true_iff, !Nat.eqb_eq in Hd. tauto. }
    rewrite Lb. split; [|auto]. apply (no_warnings sc s Hd). intros i Hi'. eapply Rle_trans; [apply H1, Hi'|]. lra.
  Qed.

  (** the only implicit table flagged FSAL *)
  Lemma irk_fsal m sc : In m implicit_methods -> irk_get_coefficients (T := R) m = Ok sc ->
    (sc_FSAL sc = true <-> m = LOBATTO_IIIA_43) /\ (sc_FSAL sc = true -> is_fsal sc (length (sc_b sc))).
  Proof.
    intros Hi Hg. simpl in Hi.
    assert (No : forall d x r, irk_table (T := R) m = Ok r -> sc_match d x r -> sc_FSAL x = false -> m <> LOBATTO_IIIA_43 ->
       (sc_FSAL sc = true <-> m = LOBATTO_IIIA_43) /\ (sc_FSAL sc = true -> is_fsal sc (length (sc_b sc)))).
    { intros d x r Ht Hm Hf Hne. rewrite (irk_get_det _ _ _ Hg Ht), (m_FSAL _ _ _ Hm), Hf.
      split; [split; [discriminate|tauto]|discriminate]. }
    repeat (destruct Hi as [<-|Hi]); try contradiction.
    - destruct match_ie as (r & Ht & Hm). eapply No; try eassumption; [reflexivity|discriminate].
    - destruct match_r32 as (r & Ht & Hm). eapply No; try eassumption; [reflexivity|discriminate].
    - destruct match_r53 as (r & Ht & Hm). eapply No; try eassumption; [reflexivity|discriminate].
    - destruct match_r95 as (r & Ht & Hm). eapply No; try eassumption; [reflexivity|discriminate].
    - destruct match_r137 as (r & Ht & Hm). eapply No; try eassumption; [reflexivity|discriminate].
    - destruct match_l43 as (r & Ht & Hm). rewrite (irk_get_det _ _ _ Hg Ht), (m_FSAL _ _ _ Hm). split; [simpl; tauto|].
      intros _. rewrite (m_b _ _ _ Hm), map_length. apply (fsal_check_ok 2 q_l43 r 3 Hm); [reflexivity|lia|vm_compute; reflexivity].
    - destruct match_l127 as (r & Ht & Hm). eapply No; try eassumption; [reflexivity|discriminate].
    - destruct match_c43 as (r & Ht & Hm). eapply No; try eassumption; [reflexivity|discriminate].
    - destruct match_c64 as (r & Ht & Hm). eapply No; try eassumption; [reflexivity|discriminate].
    - destruct match_c85 as (r & Ht & Hm). eapply No; try eassumption; [reflexivity|discriminate].
    - destruct match_g42 as (r & Ht & Hm). eapply No; try eassumption; [reflexivity|discriminate].
    - destruct match_g147 as (r & Ht & Hm). eapply No; try eassumption; [reflexivity|discriminate].
  Qed.

  Lemma irk_fsal_final m sc : In m implicit_methods -> irk_get_coefficients (T := R) m = Ok sc ->
    (sc_FSAL sc = true <-> m = LOBATTO_IIIA_43) /\
    (sc_FSAL sc = true -> forall j, (j < length (sc_b sc))%nat ->
       mentry (sc_A sc) (length (sc_b sc) - 1) j = ventry (sc_b sc) j /\ mentry (sc_A sc) 0 j = 0).
  Proof. intros Hi Hg. destruct (irk_fsal m sc Hi Hg) as [H1 H2]. split; [exact H1|]. intros Hf j Hj. destruct (H2 Hf). auto. Qed.

  Lemma irk_embedded m adv act : In (m, adv, act) embedded_orders -> exists sc,
    irk_get_coefficients (T := R) m = Ok sc /\ sc_order2 sc = Some (Z.of_nat adv) /\
    exact_order (S (length (sc_b sc))) (ext_a (length (sc_b sc)) (mfun (sc_A sc)))
                (ext_b (length (sc_b sc)) (vfun (sc_b2 sc)) (sc_gamma sc)) act.
  Proof.
    unfold embedded_orders. simpl. intros H.
    destruct H as [H|[H|[H|[H|[H|[H|[H|[]]]]]]]]; injection H as <- <- <-.
    - destruct match_l43 as (r & Ht & Hm). exists r. split; [apply irk_get_of_table, Ht|]. rewrite (m_order2 _ _ _ Hm), (m_b _ _ _ Hm), map_length. split; [reflexivity|]. apply emb_l43, Hm.
    - destruct match_r53 as (r & Ht & Hm). exists r. split; [apply irk_get_of_table, Ht|]. rewrite (m_order2 _ _ _ Hm), (m_b _ _ _ Hm), map_length. split; [reflexivity|]. apply emb_r53, Hm.
    - destruct match_c43 as (r & Ht & Hm). exists r. split; [apply irk_get_of_table, Ht|]. rewrite (m_order2 _ _ _ Hm), (m_b _ _ _ Hm), map_length. split; [reflexivity|]. apply emb_c43, Hm.
    - destruct match_c64 as (r & Ht & Hm). exists r. split; [apply irk_get_of_table, Ht|]. rewrite (m_order2 _ _ _ Hm), (m_b _ _ _ Hm), map_length. split; [reflexivity|]. apply emb_c64, Hm.
    - destruct match_g42 as (r & Ht & Hm). exists r. split; [apply irk_get_of_table, Ht|]. rewrite (m_order2 _ _ _ Hm), (m_b _ _ _ Hm), map_length. split; [reflexivity|]. apply emb_g42, Hm.
    - destruct match_r32 as (r & Ht & Hm). exists r. split; [apply irk_get_of_table, Ht|]. rewrite (m_order2 _ _ _ Hm), (m_b _ _ _ Hm), map_length. split; [reflexivity|]. apply emb_r32, Hm.
    - destruct match_c85 as (r & Ht & Hm). exists r. split; [apply irk_get_of_table, Ht|]. rewrite (m_order2 _ _ _ Hm), (m_b _ _ _ Hm), map_length. split; [reflexivity|]. apply emb_c85, Hm.
  Qed.

  Lemma irk_embedded_decimal m : In m implicit_decimal -> exists sc, irk_get_coefficients (T := R) m = Ok sc /\
    Rabs (sc_gamma sc + Rsum (length (sc_b2 sc)) (fun i => ventry (sc_b2 sc) i) - 1) <= / 10000000000000000.
  Proof.
    simpl. intros [<-|[<-|[<-|[<-|[]]]]].
    - destruct match_r95 as (r & Ht & Hm). exists r. split; [apply irk_get_of_table, Ht|].
      replace (length (sc_b2 r)) with 5%nat by (rewrite (m_b2 _ _ _ Hm), map_length; reflexivity).
      apply (emb_sum_close q_r95 r 5 Hm eq_refl). vm_compute; reflexivity.
    - destruct match_r137 as (r & Ht & Hm). exists r. split; [apply irk_get_of_table, Ht|].
      replace (length (sc_b2 r)) with 7%nat by (rewrite (m_b2 _ _ _ Hm), map_length; reflexivity).
      apply (emb_sum_close q_r137 r 7 Hm eq_refl). vm_compute; reflexivity.
    - destruct match_g147 as (r & Ht & Hm). exists r. split; [apply irk_get_of_table, Ht|].
      replace (length (sc_b2 r)) with 7%nat by (rewrite (m_b2 _ _ _ Hm), map_length; reflexivity).
      apply (emb_sum_close q_g147 r 7 Hm eq_refl). vm_compute; reflexivity.
    - destruct match_l127 as (r & Ht & Hm). exists r. split; [apply irk_get_of_table, Ht|].
      replace (length (sc_b2 r)) with 7%nat by (rewrite (m_b2 _ _ _ Hm), map_length; reflexivity).
      apply (emb_sum_close q_l127 r 7 Hm eq_refl). vm_compute; reflexivity.
  Qed.
  Lemma irk_embedded_sums :
    (exists sc, irk_get_coefficients (T := R) RADAU_IIA_53 = Ok sc /\ sc_gamma sc + Rsum (length (sc_b2 sc)) (fun i => ventry (sc_b2 sc) i) = 1) /\
    (exists sc, irk_get_coefficients (T := R) RADAU_IIA_32 = Ok sc /\ sc_gamma sc + Rsum (length (sc_b2 sc)) (fun i => ventry (sc_b2 sc) i) = 4 / 3) /\
    (exists sc, irk_get_coefficients (T := R) LOBATTO_IIIC_85 = Ok sc /\
       1189 / 1000 < sc_gamma sc + Rsum (length (sc_b2 sc)) (fun i => ventry (sc_b2 sc) i) < 119 / 100).
  Proof.
    split; [|split].
    - destruct match_r53 as (r & Ht & Hm). exists r. split; [apply irk_get_of_table, Ht|].
      replace (length (sc_b2 r)) with 3%nat by (rewrite (m_b2 _ _ _ Hm), map_length; reflexivity).
      rewrite (emb_sum 6 q_r53 r 3 Hm eq_refl). rewrite <- (toR_1 6). apply toR_eqb. vm_compute; reflexivity.
    - destruct match_r32 as (r & Ht & Hm). exists r. split; [apply irk_get_of_table, Ht|].
      replace (length (sc_b2 r)) with 2%nat by (rewrite (m_b2 _ _ _ Hm), map_length; reflexivity).
      rewrite (emb_sum 2 q_r32 r 2 Hm eq_refl). rewrite toR_rational by (vm_compute; reflexivity).
      match goal with |- Q2R ?q = _ => let v := eval vm_compute in q in change q with v end. unfold Q2R; simpl; lra.
    - destruct match_c85 as (r & Ht & Hm). exists r. split; [apply irk_get_of_table, Ht|].
      replace (length (sc_b2 r)) with 5%nat by (rewrite (m_b2 _ _ _ Hm), map_length; reflexivity).
      rewrite (emb_sum 21 q_c85 r 5 Hm eq_refl). rewrite toR_rational by (vm_compute; reflexivity).
      match goal with |- _ < Q2R ?q < _ => let v := eval vm_compute in q in change q with v end.
      unfold Q2R; cbn [Qnum Qden]; lra.
  Qed.

  (** dense output *)
  Lemma irk_interp m sc : In m [RADAU_IIA_32; RADAU_IIA_53; LOBATTO_IIIC_85; RADAU_IIA_95; RADAU_IIA_137] ->
    irk_table (T := R) m = Ok sc -> collocation_interpolate_coeffs (sc_c sc) = Ok (sc_b_interp sc).
  Proof.
    simpl. intros [<-|[<-|[<-|[<-|[<-|[]]]]]].
    - change (irk_table RADAU_IIA_32) with (irk_radau_iia_32 (T := R)). unfold irk_radau_iia_32. cbv zeta.
      destruct (collocation_interpolate_coeffs _) as [B|] eqn:HB; [|discriminate]. cbn [rbind]. intros [= <-]. exact HB.
    - change (irk_table RADAU_IIA_53) with (irk_radau_iia_53 (T := R)). unfold irk_radau_iia_53. cbv zeta.
      destruct (collocation_interpolate_coeffs _) as [B|] eqn:HB; [|discriminate]. cbn [rbind]. intros [= <-]. exact HB.
    - change (irk_table LOBATTO_IIIC_85) with (irk_lobatto_iiic_85 (T := R)). unfold irk_lobatto_iiic_85. cbv zeta.
      destruct (collocation_interpolate_coeffs _) as [B|] eqn:HB; [|discriminate]. cbn [rbind]. intros [= <-]. exact HB.
    - change (irk_table RADAU_IIA_95) with (irk_radau_iia_95 (T := R)). unfold irk_radau_iia_95. cbv zeta.
      destruct (collocation_interpolate_coeffs _) as [B|] eqn:HB; [|discriminate]. cbn [rbind]. intros [= <-]. exact HB.
    - change (irk_table RADAU_IIA_137) with (irk_radau_iia_137 (T := R)). unfold irk_radau_iia_137. cbv zeta.
      destruct (collocation_interpolate_coeffs _) as [B|] eqn:HB; [|discriminate]. cbn [rbind]. intros [= <-]. exact HB.
  Qed.

  Context {LA : LinAlg R} {X : ExactProducts LA}.
  Lemma irk_dense m sc : In m [RADAU_IIA_32; RADAU_IIA_53; LOBATTO_IIIC_85] -> irk_get_coefficients (T := R) m = Ok sc ->
    project_b 1 (length (sc_b sc)) (sc_b_interp sc) = Ok (sc_b sc) /\
    project_b 0 (length (sc_b sc)) (sc_b_interp sc) = Ok (repeat 0 (length (sc_b sc))) /\
    (m <> LOBATTO_IIIC_85 -> forall i, (i < length (sc_b sc))%nat ->
       project_b (ventry (sc_c sc) i) (length (sc_b sc)) (sc_b_interp sc) =
       Ok (vtab (length (sc_b sc)) (fun j => mentry (sc_A sc) i j))).
  Proof.
    simpl. intros [<-|[<-|[<-|[]]]] Hg.
    - destruct match_r32 as (r & Ht & Hm). rewrite (irk_get_det _ _ _ Hg Ht). replace (length (sc_b r)) with 2%nat by (rewrite (m_b _ _ _ Hm), map_length; reflexivity).
      pose proof (irk_interp RADAU_IIA_32 r ltac:(simpl; auto) Ht) as HB.
      split; [|split]; [apply (dense_at_1 2 q_r32 r 2 Hm HB); vm_compute; reflexivity|
                        apply (dense_at_0 2 q_r32 r 2 Hm HB); vm_compute; reflexivity|].
      intros _ i Hi. apply (dense_at_ci 2 q_r32 r 2 Hm HB); [vm_compute; reflexivity|exact Hi|].
      destruct i as [|[|i]]; [vm_compute; reflexivity..|lia].
    - destruct match_r53 as (r & Ht & Hm). rewrite (irk_get_det _ _ _ Hg Ht). replace (length (sc_b r)) with 3%nat by (rewrite (m_b _ _ _ Hm), map_length; reflexivity).
      pose proof (irk_interp RADAU_IIA_53 r ltac:(simpl; auto) Ht) as HB.
      split; [|split]; [apply (dense_at_1 6 q_r53 r 3 Hm HB); vm_compute; reflexivity|
                        apply (dense_at_0 6 q_r53 r 3 Hm HB); vm_compute; reflexivity|].
      intros _ i Hi. apply (dense_at_ci 6 q_r53 r 3 Hm HB); [vm_compute; reflexivity|exact Hi|].
      destruct i as [|[|[|i]]]; [vm_compute; reflexivity..|lia].
    - destruct match_c85 as (r & Ht & Hm). rewrite (irk_get_det _ _ _ Hg Ht). replace (length (sc_b r)) with 5%nat by (rewrite (m_b _ _ _ Hm), map_length; reflexivity).
      pose proof (irk_interp LOBATTO_IIIC_85 r ltac:(simpl; auto) Ht) as HB.
      split; [|split]; [apply (dense_at_1 21 q_c85 r 5 Hm HB); vm_compute; reflexivity|
                        apply (dense_at_0 21 q_c85 r 5 Hm HB); vm_compute; reflexivity|tauto].
  Qed.

  Lemma irk_dense_final m sc : In m implicit_closed_form -> irk_get_coefficients (T := R) m = Ok sc ->
    nrows (sc_b_interp sc) <> 0%nat ->
    project_b 1 (length (sc_b sc)) (sc_b_interp sc) = Ok (sc_b sc) /\
    project_b 0 (length (sc_b sc)) (sc_b_interp sc) = Ok (repeat 0 (length (sc_b sc))) /\
    (In m radau_closed_form -> forall i, (i < length (sc_b sc))%nat ->
       project_b (ventry (sc_c sc) i) (length (sc_b sc)) (sc_b_interp sc) =
       Ok (vtab (length (sc_b sc)) (fun j => mentry (sc_A sc) i j))).
  Proof.
    intros Hi Hg Hn.
    assert (Hin : In m [RADAU_IIA_32; RADAU_IIA_53; LOBATTO_IIIC_85]).
    { simpl in Hi. repeat (destruct Hi as [<-|Hi]); try contradiction; try (simpl; tauto); exfalso; apply Hn;
        rewrite (irk_get_det _ _ _ Hg eq_refl); reflexivity. }
    destruct (irk_dense m sc Hin Hg) as (H1 & H2 & H3). split; [exact H1|]. split; [exact H2|].
    intros Hr. apply H3. simpl in Hr. unfold LOBATTO_IIIC_85, RADAU_IIA_32, RADAU_IIA_53 in * . lia.
  Qed.
  Lemma irk_dense_have m : In m [RADAU_IIA_32; RADAU_IIA_53; LOBATTO_IIIC_85] -> exists sc,
    irk_get_coefficients (T := R) m = Ok sc /\ nrows (sc_b_interp sc) = length (sc_b sc) /\ (0 < length (sc_b sc))%nat.
  Proof.
    intros Hi. destruct (irk_get_ok (T := R) m) as (sc & Hg & Ht & Hd). exists sc. split; [exact Hg|].
    assert (Hc : collocation_interpolate_coeffs (sc_c sc) = Ok (sc_b_interp sc)) by (apply (irk_interp m); [simpl in *; tauto|exact Ht]).
    destruct (collocation_ok (sc_c sc)) as [f Hf]. rewrite Hf in Hc. injection Hc as <-.
    unfold dims_ok in Hd. rewrite !andb_true_iff, !Nat.eqb_eq in Hd. destruct Hd as [[[[Hb Hc] _] _] _].
    rewrite Hb, Hc. split; [reflexivity|]. simpl in Hi. destruct Hi as [<-|[<-|[<-|[]]]]; vm_compute; lia.
  Qed.
End Irk.
