(** The matrix A of each method irk::odeint can run is invertible: an inverse is computed exactly in Q(sqrt d) and checked. *)
From Coq Require Import QArith Qreals Reals Lra.
From Verif Require Import Model.Base Model.Scalar Model.LinAlg Model.Enums Model.Coeffs Model.IrkCoeffs Spec.Sums Spec.Trees Spec.Methods Spec.NewtonSpec Spec.IrkSpec.
From Verif Require Import Proofs.SumsProofs Proofs.QuadField Proofs.OrderProofs Proofs.IrkCoeffsProofs.
Local Open Scope R_scope.

Section Gauss.
  Variable d : Z.
  Definition q_zero (x : qs) : bool := qs_eqb x qs0.
  Fixpoint add_scaled (c : qs) (u v : list qs) : list qs :=
    match u, v with x :: u, y :: v => qs_add x (qs_mul d c y) :: add_scaled c u v | _, _ => [] end.
  (** first row whose head entry at column k is not zero, and the others *)
  Fixpoint pick (k : nat) (rows : list (list qs)) : option (list qs * list (list qs)) :=
    match rows with
    | [] => None
    | r :: rs => if q_zero (nth k r qs0) then match pick k rs with Some (p, rest) => Some (p, r :: rest) | None => None end else Some (r, rs)
    end.
  Definition clear (k : nat) (p r : list qs) : list qs := add_scaled (qs_opp (nth k r qs0)) r p.
  Fixpoint reduce (fuel k : nat) (done rest : list (list qs)) : list (list qs) :=
    match fuel with
    | O => done
    | S fuel => match pick k rest with
                | None => []
                | Some (p, rest) => let p := map (qs_mul d (qs_inv d (nth k p qs0))) p in
                                    reduce fuel (S k) (map (clear k p) done ++ [p]) (map (clear k p) rest)
                end
    end.
  Definition unit_row (s i : nat) : list qs := map (fun j => if (i =? j)%nat then qs1 else qs0) (seq 0 s).
  Definition gauss_inverse (s : nat) (rows : list (list qs)) : list (list qs) :=
    map (skipn s) (reduce s 0 [] (map (fun i => nth i rows [] ++ unit_row s i) (seq 0 s))).
  Definition q_entry (rows : list (list qs)) (i j : nat) : qs := nth j (nth i rows []) qs0.
  Definition q_prod (s : nat) (P Q : list (list qs)) (i j : nat) : qs := fold_right (fun k acc => qs_add (qs_mul d (q_entry P i k) (q_entry Q k j)) acc) qs0 (seq 0 s).
  Definition q_delta (i j : nat) : qs := if (i =? j)%nat then qs1 else qs0.
  Definition inverse_check (s : nat) (P Q : list (list qs)) : bool :=
    forallb (fun i => forallb (fun j => qs_eqb (q_prod s P Q i j) (q_delta i j) && qs_eqb (q_prod s Q P i j) (q_delta i j)) (seq 0 s)) (seq 0 s).

  Hypothesis d_nonneg : (0 <= d)%Z.
  Lemma Rsum_fold (f : nat -> R) s : forall k, fold_right (fun k acc => f k + acc) 0 (seq k s) = Rsum s (fun i => f (k + i)%nat).
  Proof.
    induction s as [|s IH]; intros k; [reflexivity|]. cbn [seq fold_right]. rewrite IH. rewrite (Rsum_shift s). rewrite Nat.add_0_r. f_equal. apply Rsum_ext. intros i _. f_equal. lia.
  Qed.
  Lemma q_prod_R s P Q i j : toR d (q_prod s P Q i j) = Rsum s (fun k => toR d (q_entry P i k) * toR d (q_entry Q k j)).
  Proof.
    unfold q_prod. pose proof (Rsum_fold (fun k => toR d (q_entry P i k) * toR d (q_entry Q k j)) s 0) as E. cbn [Nat.add] in E. rewrite <- E. clear E. induction (seq 0 s) as [|k l IH]; cbn [fold_right]; [apply toR_0|].
    rewrite toR_add, toR_mul by exact d_nonneg. rewrite IH. reflexivity.
  Qed.
  Lemma q_delta_R i j : toR d (q_delta i j) = delta i j.
  Proof. unfold q_delta, delta. destruct (Nat.eq_dec i j) as [E|E]; [apply Nat.eqb_eq in E|apply Nat.eqb_neq in E]; rewrite E; [apply toR_1|apply toR_0]. Qed.
  Lemma inverse_checked s P Q : inverse_check s P Q = true -> forall i j, (i < s)%nat -> (j < s)%nat ->
    Rsum s (fun k => toR d (q_entry P i k) * toR d (q_entry Q k j)) = delta i j /\ Rsum s (fun k => toR d (q_entry Q i k) * toR d (q_entry P k j)) = delta i j.
  Proof.
    unfold inverse_check. rewrite forallb_forall. intros Hc i j Hi Hj. specialize (Hc i ltac:(apply in_seq; lia)). rewrite forallb_forall in Hc. specialize (Hc j ltac:(apply in_seq; lia)).
    apply andb_true_iff in Hc. destruct Hc as [C1 C2]. apply (toR_eqb d) in C1, C2. rewrite q_prod_R, q_delta_R in C1, C2. auto.
  Qed.
End Gauss.

Lemma table_invertible d x r s : (0 <= d)%Z -> sc_match d x r -> dims_ok x s = true -> inverse_check d s (rows_of (sc_A x)) (gauss_inverse d s (rows_of (sc_A x))) = true -> invertible (sc_A r).
Proof.
  intros Hd Hm Hdim Hc. destruct (dims_facts x s Hdim) as (_ & _ & Er & Ec & _).
  exists (mtab s s (fun i j => toR d (q_entry (gauss_inverse d s (rows_of (sc_A x))) i j))).
  assert (ER : nrows (sc_A r) = s) by (rewrite (m_Ar _ _ _ Hm); exact Er).
  assert (EC : ncols (sc_A r) = s) by (unfold ncols; rewrite (m_A _ _ _ Hm), map_length; exact Ec).
  unfold is_inverse. rewrite ER, EC, mtab_nrows, mtab_ncols. split; [reflexivity|]. split; [reflexivity|]. split; [reflexivity|].
  intros i j Hi Hj. destruct (inverse_checked d Hd s _ _ Hc i j Hi Hj) as [C1 C2]. rewrite <- C1 at 1. rewrite <- C2.
  split; apply Rsum_ext; intros k Hk; rewrite mtab_entry by assumption; rewrite (tab_a d x r s Hm Hdim) by assumption; reflexivity.
Qed.

(** Rational tableaux: fraction-free elimination over the integers. *)
Section Integer.
  Variables (d : Z) (D : Z).
  Hypothesis D_pos : (0 < D)%Z.
  (** D times a rational number *)
  Definition z_of (x : qs) : Z := (Qnum (q0 x) * (D / Zpos (Qden (q0 x))))%Z.
  Definition z_fits (x : qs) : bool := Qeq_bool (q1 x) 0 && (D mod Zpos (Qden (q0 x)) =? 0)%Z.
  Lemma z_of_R x : z_fits x = true -> toR d x = IZR (z_of x) / IZR D.
  Proof.
    unfold z_fits. rewrite andb_true_iff, Z.eqb_eq. intros [E1 E2]. rewrite toR_rational by exact E1. unfold Q2R, z_of.
    assert (E : D = (Zpos (Qden (q0 x)) * (D / Zpos (Qden (q0 x))))%Z) by (apply Z_div_exact_full_2; [discriminate|exact E2]).
    set (k := (D / Zpos (Qden (q0 x)))%Z) in * . rewrite E at 1. rewrite !mult_IZR. field.
    assert (k <> 0%Z) by (intros ->; lia). split; [apply not_0_IZR; assumption|apply not_0_IZR; discriminate].
  Qed.
  Definition z_row (p ak prev : Z) (r pr : list Z) : list Z := map (fun xy => ((p * fst xy - ak * snd xy) / prev)%Z) (combine r pr).
  Fixpoint bareiss (fuel k : nat) (prev : Z) (rows : list (list Z)) : list (list Z) :=
    match fuel with
    | O => rows
    | S fuel => let pr := nth k rows [] in let p := nth k pr 0%Z in
                bareiss fuel (S k) p (map (fun i => let r := nth i rows [] in if (i =? k)%nat then r else z_row p (nth k r 0%Z) prev r pr) (seq 0 (length rows)))
    end.
  Definition z_unit (s i : nat) : list Z := map (fun j => if (i =? j)%nat then 1%Z else 0%Z) (seq 0 s).
  Definition z_adj (s : nat) (rows : list (list Z)) : Z * list (list Z) :=
    let r := bareiss s 0 1 (map (fun i => nth i rows [] ++ z_unit s i) (seq 0 s)) in (nth 0 (nth 0 r []) 0%Z, map (skipn s) r).
  Definition z_entry (rows : list (list Z)) (i j : nat) : Z := nth j (nth i rows []) 0%Z.
  Definition z_prod (s : nat) (P Q : list (list Z)) (i j : nat) : Z := fold_right (fun k acc => (z_entry P i k * z_entry Q k j + acc)%Z) 0%Z (seq 0 s).
  Definition z_check (s : nat) (P Q : list (list Z)) (det : Z) : bool :=
    negb (det =? 0)%Z && forallb (fun i => forallb (fun j => (z_prod s P Q i j =? (if (i =? j)%nat then det else 0))%Z && (z_prod s Q P i j =? (if (i =? j)%nat then det else 0))%Z) (seq 0 s)) (seq 0 s).
  Definition integer_check (s : nat) (rows : list (list qs)) : bool :=
    forallb (fun i => forallb (fun j => z_fits (q_entry rows i j)) (seq 0 s)) (seq 0 s) &&
    (let P := map (map z_of) rows in let '(det, Q) := z_adj s P in z_check s P Q det).
  Lemma z_prod_R s P Q i j : IZR (z_prod s P Q i j) = Rsum s (fun k => IZR (z_entry P i k) * IZR (z_entry Q k j)).
  Proof.
    unfold z_prod. pose proof (Rsum_fold (fun k => IZR (z_entry P i k) * IZR (z_entry Q k j)) s 0) as E. cbn [Nat.add] in E. rewrite <- E. clear E.
    induction (seq 0 s) as [|k l IH]; cbn [fold_right]; [reflexivity|]. rewrite plus_IZR, mult_IZR, IH. reflexivity.
  Qed.
  Lemma integer_checked s rows : integer_check s rows = true -> exists B, forall i j, (i < s)%nat -> (j < s)%nat ->
    Rsum s (fun k => toR d (q_entry rows i k) * B k j) = delta i j /\ Rsum s (fun k => B i k * toR d (q_entry rows k j)) = delta i j.
  Proof.
    unfold integer_check. rewrite andb_true_iff, forallb_forall. cbv zeta. destruct (z_adj s (map (map z_of) rows)) as [det Q]. intros [F1 F2].
    unfold z_check in F2. apply andb_true_iff in F2. destruct F2 as [N F2]. rewrite forallb_forall in F2. apply negb_true_iff, Z.eqb_neq in N. apply not_0_IZR in N.
    assert (ND : IZR D <> 0) by (apply not_0_IZR; lia).
    assert (FE : forall i j, (i < s)%nat -> (j < s)%nat -> toR d (q_entry rows i j) = IZR (z_entry (map (map z_of) rows) i j) / IZR D).
    { intros i j Hi Hj. specialize (F1 i ltac:(apply in_seq; lia)). rewrite forallb_forall in F1. rewrite z_of_R by (apply F1, in_seq; lia). f_equal. f_equal. unfold q_entry, z_entry.
      rewrite (nth_map (map z_of) rows i [] []) by reflexivity. symmetry. apply nth_map. reflexivity. }
    exists (fun i j => IZR D * IZR (z_entry Q i j) / IZR det). intros i j Hi Hj.
    specialize (F2 i ltac:(apply in_seq; lia)). rewrite forallb_forall in F2. specialize (F2 j ltac:(apply in_seq; lia)). apply andb_true_iff in F2. rewrite !Z.eqb_eq in F2. destruct F2 as [C1 C2].
    assert (ED : IZR (if (i =? j)%nat then det else 0%Z) / IZR det = delta i j).
    { unfold delta. destruct (Nat.eq_dec i j) as [E|E]; [apply Nat.eqb_eq in E|apply Nat.eqb_neq in E]; rewrite E; field; exact N. }
    split.
    - rewrite <- ED, <- C1, z_prod_R. unfold Rdiv. rewrite <- Rsum_scal_r. apply Rsum_ext. intros k Hk. rewrite FE by assumption. field. split; assumption.
    - rewrite <- ED, <- C2, z_prod_R. unfold Rdiv. rewrite <- Rsum_scal_r. apply Rsum_ext. intros k Hk. rewrite FE by assumption. field. split; assumption.
  Qed.
End Integer.

Lemma table_invertible_z d D x r s : (0 < D)%Z -> sc_match d x r -> dims_ok x s = true -> integer_check D s (rows_of (sc_A x)) = true -> invertible (sc_A r).
Proof.
  intros HD Hm Hdim Hc. destruct (dims_facts x s Hdim) as (_ & _ & Er & Ec & _). destruct (integer_checked d D HD s _ Hc) as (B & HB).
  exists (mtab s s B).
  assert (ER : nrows (sc_A r) = s) by (rewrite (m_Ar _ _ _ Hm); exact Er).
  assert (EC : ncols (sc_A r) = s) by (unfold ncols; rewrite (m_A _ _ _ Hm), map_length; exact Ec).
  unfold is_inverse. rewrite ER, EC, mtab_nrows, mtab_ncols. split; [reflexivity|]. split; [reflexivity|]. split; [reflexivity|].
  intros i j Hi Hj. destruct (HB i j Hi Hj) as [C1 C2]. rewrite <- C1 at 1. rewrite <- C2.
  split; apply Rsum_ext; intros k Hk; rewrite mtab_entry by assumption; rewrite (tab_a d x r s Hm Hdim) by assumption; reflexivity.
Qed.

Lemma runnable_invertible `{Env R} m sc : In m implicit_runnable -> irk_table (T := R) m = Ok sc -> invertible (sc_A sc).
Proof.
  unfold implicit_runnable. cbn [In]. intros Hi Ht.
  destruct match_r32 as (s1 & E1 & M1). destruct match_r53 as (s2 & E2 & M2). destruct match_r95 as (s3 & E3 & M3). destruct match_r137 as (s4 & E4 & M4).
  destruct match_c43 as (s5 & E5 & M5). destruct match_c64 as (s6 & E6 & M6). destruct match_c85 as (s7 & E7 & M7).
  destruct Hi as [<-|[<-|[<-|[<-|[<-|[<-|[<-|[]]]]]]]].
  - rewrite E1 in Ht. injection Ht as <-. eapply (table_invertible _ _ _ 2%nat); [|exact M1|vm_compute; reflexivity..]. lia.
  - rewrite E2 in Ht. injection Ht as <-. eapply (table_invertible _ _ _ 3%nat); [|exact M2|vm_compute; reflexivity..]. lia.
  - rewrite E3 in Ht. injection Ht as <-. eapply (table_invertible_z _ (10 ^ 20) _ _ 5%nat); [|exact M3|vm_compute; reflexivity..]. reflexivity.
  - rewrite E4 in Ht. injection Ht as <-. eapply (table_invertible_z _ (10 ^ 40) _ _ 7%nat); [|exact M4|vm_compute; reflexivity..]. reflexivity.
  - rewrite E5 in Ht. injection Ht as <-. eapply (table_invertible _ _ _ 3%nat); [|exact M5|vm_compute; reflexivity..]. lia.
  - rewrite E6 in Ht. injection Ht as <-. eapply (table_invertible _ _ _ 4%nat); [|exact M6|vm_compute; reflexivity..]. lia.
  - rewrite E7 in Ht. injection Ht as <-. eapply (table_invertible _ _ _ 5%nat); [|exact M7|vm_compute; reflexivity..]. lia.
Qed.
