From Coq Require Import QArith Qreals Reals Lra.
From Verif Require Import Model.Base Model.Scalar Model.LinAlg Model.Enums Model.Coeffs Model.ErkCoeffs.
From Verif Require Import Spec.Sums Spec.Trees Proofs.QuadField Proofs.OrderProofs Proofs.MatchTac.
Local Open Scope R_scope.

(** The explicit tableaux are rational; d = 2 is arbitrary. *)
Definition erk_q (m : Z) : solver_coeffs qs :=
  match @erk_table qs (QScalar 2) m with Ok sc => sc | Err _ => @unsupported_coeffs qs (QScalar 2) end.

Definition q_euler := Eval vm_compute in erk_q 100.
Definition q_rk4 := Eval vm_compute in erk_q 110.
Definition q_bs := Eval vm_compute in erk_q 120.
Definition q_ck := Eval vm_compute in erk_q 130.
Definition q_dp := Eval vm_compute in erk_q 131.
Definition q_fb := Eval vm_compute in erk_q 132.

Lemma match_euler : exists r, erk_table (T := R) EXPLICIT_EULER = Ok r /\ sc_match 2 q_euler r.
Proof. eexists; split; [reflexivity|]. unfold q_euler. qmatch. Qed.
Lemma match_rk4 : exists r, erk_table (T := R) RUNGE_KUTTA_4 = Ok r /\ sc_match 2 q_rk4 r.
Proof. eexists; split; [reflexivity|]. unfold q_rk4, one_third, one_six. qmatch. Qed.
Lemma match_bs : exists r, erk_table (T := R) BOGACKI_SHAMPINE_32 = Ok r /\ sc_match 2 q_bs r.
Proof. eexists; split; [reflexivity|]. unfold q_bs. qmatch. Qed.
Lemma match_ck : exists r, erk_table (T := R) CASH_KARP_54 = Ok r /\ sc_match 2 q_ck r.
Proof. eexists; split; [reflexivity|]. unfold q_ck. qmatch. Qed.
Lemma match_dp : exists r, erk_table (T := R) DORMAND_PRINCE_54 = Ok r /\ sc_match 2 q_dp r.
Proof. eexists; split; [reflexivity|]. unfold q_dp. qmatch. Qed.
Lemma match_fb : exists r, erk_table (T := R) FEHLBERG_54 = Ok r /\ sc_match 2 q_fb r.
Proof. eexists; split; [reflexivity|]. unfold q_fb. qmatch. Qed.

From Verif Require Import Proofs.CoeffsProofs.

(** What is checked by computation for one tableau: dimensions, row sums, strict lower triangularity, main and
    embedded order (with a tree showing that it is not larger). *)
Definition lower_check (x : solver_coeffs qs) (s : nat) : bool :=
  forallb (fun i => forallb (fun j => qs_eqb (nth j (nth i (rows_of (sc_A x)) []) qs0) qs0) (seq i (s - i))) (seq 0 s).

Lemma lower_ok d x r s : sc_match d x r -> dims_ok x s = true -> lower_check x s = true ->
  forall i j, (i <= j)%nat -> (j < s)%nat -> mentry (sc_A r) i j = 0.
Proof.
  intros Hm Hd Hl i j Hij Hj. unfold lower_check in Hl. rewrite forallb_forall in Hl.
  specialize (Hl i ltac:(apply in_seq; lia)). rewrite forallb_forall in Hl. specialize (Hl j ltac:(apply in_seq; lia)).
  apply (toR_eqb d) in Hl. rewrite toR_0 in Hl. rewrite (tab_a d x r s Hm Hd) by lia. exact Hl.
Qed.

Lemma erk_get_of_table m sc s : erk_table (T := R) m = Ok sc -> dims_ok sc s = true -> erk_get_coefficients m = Ok sc.
Proof.
  intros Ht Hd. unfold erk_get_coefficients. rewrite Ht. cbn [rbind].
  destruct (coeff_warnings_ok sc s Hd) as [ws ->]. reflexivity.
Qed.

Lemma dims_erk_verify (sc : solver_coeffs R) s : (0 < s)%nat -> dims_ok sc s = true ->
  (forall i j, (i <= j)%nat -> (j < s)%nat -> mentry (sc_A sc) i j = 0) -> erk_verify_solver_coeffs sc = true.
Proof.
  intros Hs Hd Hl. unfold dims_ok in Hd. rewrite !andb_true_iff, !Nat.eqb_eq in Hd.
  destruct Hd as [[[[H1 H2] H3] H4] H5]. unfold erk_verify_solver_coeffs, ncols. rewrite H1, H2, H3, H4, !Nat.eqb_refl.
  replace (s =? 0)%nat with false by (symmetry; apply Nat.eqb_neq; lia). cbn [andb negb].
  apply forallb_forall. intros i Hi. apply in_seq in Hi. apply forallb_forall. intros j Hj. apply in_seq in Hj.
  specialize (Hl i j ltac:(lia) ltac:(lia)). unfold mentry in Hl.
  cbn [seqb RScalar slit Rlit]. unfold sZ. cbn [slit RScalar Rlit]. rewrite Hl. unfold Reqb.
  destruct (Req_EM_T 0 0); [reflexivity|contradiction].
Qed.

(** Everything claimed about an explicit tableau with s stages and orders p, p2 (None: no embedded method). *)
Record erk_facts (m : Z) (sc : solver_coeffs R) (s p : nat) (p2 : option nat) : Prop := {
  ef_get : erk_get_coefficients m = Ok sc;
  ef_pos : (0 < s)%nat;
  ef_dims : dims_ok sc s = true;
  ef_lower : forall i j, (i <= j)%nat -> (j < s)%nat -> mentry (sc_A sc) i j = 0;
  ef_rows : forall i, (i < s)%nat -> Rsum s (fun j => mentry (sc_A sc) i j) = ventry (sc_c sc) i;
  ef_order : sc_order sc = Some (Z.of_nat p);
  ef_exact : exact_order s (mfun (sc_A sc)) (vfun (sc_b sc)) p;
  ef_order2 : match p2 with
              | None => sc_b2 sc = [] /\ sc_order2 sc = Some 0%Z
              | Some q => length (sc_b2 sc) = s /\ sc_order2 sc = Some (Z.of_nat q) /\
                          exact_order s (mfun (sc_A sc)) (vfun (sc_b2 sc)) q
              end
}.

Lemma erk_facts_intro m x r s p p2 t t2 :
  erk_table (T := R) m = Ok r -> sc_match 2 x r -> (0 < s)%nat -> dims_ok x s = true ->
  lower_check x s = true -> row_check_exact x s = true ->
  sc_order x = Some (Z.of_nat p) -> order_check_le 2 x s (sc_b x) p = true -> vertices t = S p ->
  order_fail 2 x s (sc_b x) t = true ->
  match p2 with
  | None => sc_b2 x = [] /\ sc_order2 x = Some 0%Z
  | Some q => sc_order2 x = Some (Z.of_nat q) /\ order_check_le 2 x s (sc_b2 x) q = true /\
              vertices t2 = S q /\ order_fail 2 x s (sc_b2 x) t2 = true
  end -> erk_facts m r s p p2.
Proof.
  intros Ht Hm Hs Hd Hl Hr Ho Hc Hv Hf H2.
  assert (Hdr : dims_ok r s = true) by (eapply dims_match; eassumption).
  constructor; auto.
  - eapply erk_get_of_table; eassumption.
  - eapply lower_ok; eassumption.
  - eapply row_check_exact_ok; eassumption.
  - rewrite (m_order _ _ _ Hm). exact Ho.
  - eapply (tab_exact 2 x r s ltac:(lia) Hm Hd (sc_b x)); [apply (m_b _ _ _ Hm)|eassumption..].
  - destruct p2 as [q|].
    + destruct H2 as (G1 & G2 & G3 & G4). rewrite (m_b2 _ _ _ Hm). split; [|split].
      * rewrite map_length. unfold order_check_le in G2. rewrite andb_true_iff, Nat.eqb_eq in G2. apply G2.
      * rewrite (m_order2 _ _ _ Hm). exact G1.
      * eapply (tab_exact 2 x r s ltac:(lia) Hm Hd (sc_b2 x)); [reflexivity|eassumption..].
    + destruct H2 as (G1 & G2). rewrite (m_b2 _ _ _ Hm), (m_order2 _ _ _ Hm), G1. auto.
Qed.

Ltac erk_facts_tac H x t t2 :=
  destruct H as (r & Ht & Hm); exists r;
  apply (erk_facts_intro _ x r _ _ _ t t2); try assumption; try lia; try (vm_compute; reflexivity);
  try (split; [|split; [|split]]; vm_compute; reflexivity); try (split; vm_compute; reflexivity).

Lemma facts_euler : exists r, erk_facts EXPLICIT_EULER r 1 1 None.
Proof. erk_facts_tac match_euler q_euler (bushy 2) (bushy 2). Qed.
Lemma facts_rk4 : exists r, erk_facts RUNGE_KUTTA_4 r 4 4 None.
Proof. erk_facts_tac match_rk4 q_rk4 (bushy 5) (bushy 2). Qed.
Lemma facts_bs : exists r, erk_facts BOGACKI_SHAMPINE_32 r 4 3 (Some 2%nat).
Proof. erk_facts_tac match_bs q_bs (bushy 4) (bushy 3). Qed.
Lemma facts_ck : exists r, erk_facts CASH_KARP_54 r 6 5 (Some 4%nat).
Proof. erk_facts_tac match_ck q_ck (bushy 6) (bushy 5). Qed.
Lemma facts_dp : exists r, erk_facts DORMAND_PRINCE_54 r 7 5 (Some 4%nat).
Proof. erk_facts_tac match_dp q_dp (bushy 6) (bushy 5). Qed.
Lemma facts_fb : exists r, erk_facts FEHLBERG_54 r 6 5 (Some 4%nat).
Proof. erk_facts_tac match_fb q_fb (bushy 6) (bushy 5). Qed.
