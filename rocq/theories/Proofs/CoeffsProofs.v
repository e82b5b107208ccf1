(** The consistency check of get_coefficients. *)
From Coq Require Import QArith Qreals Qabs Reals Lra.
From Verif Require Import Model.Base Model.Scalar Model.LinAlg Model.Coeffs.
From Verif Require Import Spec.Sums Spec.Trees Proofs.SumsProofs Proofs.QuadField Proofs.OrderProofs.
Local Open Scope R_scope.

Lemma foldR_ok {A X} (f : X -> A -> res A) (P : A -> Prop) l a :
  P a -> (forall x a, In x l -> P a -> exists a', f x a = Ok a' /\ P a') -> exists a', foldR f l a = Ok a' /\ P a'.
Proof.
  revert a. induction l as [|x l IH]; intros a Ha Hf; cbn [foldR]; [eauto|].
  destruct (Hf x a (or_introl eq_refl) Ha) as (a' & -> & Ha'). cbn [rbind]. apply IH; [exact Ha'|].
  intros y b Hy Hb. apply Hf; [right; exact Hy|exact Hb].
Qed.

Lemma mget_ok {T} (A : mat T) i j : mat_wf A -> (i < nrows A)%nat -> (j < ncols A)%nat -> exists x, mget A i j = Ok x.
Proof.
  intros W Hi Hj. unfold mget. unfold ncols in Hj.
  destruct (nth_error (mcols A) j) as [c|] eqn:E; [|apply nth_error_None in E; lia].
  apply nth_error_In in E. unfold mat_wf in W. rewrite Forall_forall in W. specialize (W c E).
  destruct (nth_error c i) eqn:E2; [eauto|]. apply nth_error_None in E2. lia.
Qed.

(** For every arithmetic, the check terminates normally on a tableau of consistent dimensions. *)
Lemma coeff_warnings_ok {T} `{Scalar T} (sc : solver_coeffs T) s :
  dims_ok sc s = true -> exists ws, coeff_warnings sc = Ok ws.
Proof.
  unfold dims_ok. rewrite !andb_true_iff, !Nat.eqb_eq, forallb_forall. intros [[[[H1 H2] H3] H4] H5].
  assert (W : mat_wf (sc_A sc)).
  { apply Forall_forall. intros c Hc. apply H5 in Hc. apply Nat.eqb_eq in Hc. lia. }
  unfold coeff_warnings.
  destruct (foldR_ok (fun i ws =>
             rbind (vget (sc_c sc) i) (fun ci =>
             rbind (foldR (fun j s => rbind (mget (sc_A sc) i j) (fun a => Ok (s +. a)%sc))
                          (seq 0 (length (sc_c sc))) (slit 0 0)) (fun si =>
             Ok (if (sabs (si -. ci) >?. slit 1 (-5))%sc then ws ++ [i] else ws))))
             (fun _ => True) (seq 0 (length (sc_c sc))) [] I) as (ws & Hws & _); [|eauto].
  intros i ws Hi _. apply in_seq in Hi. unfold vget.
  destruct (nth_error (sc_c sc) i) as [ci|] eqn:Ei; [|apply nth_error_None in Ei; lia]. cbn [rbind].
  destruct (foldR_ok (fun j s => rbind (mget (sc_A sc) i j) (fun a => Ok (s +. a)%sc)) (fun _ => True)
              (seq 0 (length (sc_c sc))) (slit 0 0) I) as (si & -> & _).
  - intros j a Hj _. apply in_seq in Hj.
    destruct (mget_ok (sc_A sc) i j W) as [x ->]; [lia|unfold ncols; lia|]. cbn [rbind]. eauto.
  - cbn [rbind]. eauto.
Qed.

(** In exact arithmetic: no warning if all row sums are within 1e-5 of the abscissae. *)
Lemma mget_entry (A : mat R) i j x : mget A i j = Ok x -> x = mentry A i j.
Proof.
  unfold mget, mentry. destruct (nth_error (mcols A) j) as [c|] eqn:E; [|discriminate].
  destruct (nth_error c i) as [y|] eqn:E2; [|discriminate]. intros [= <-].
  rewrite (nth_error_nth _ _ [] E). symmetry. apply nth_error_nth, E2.
Qed.

Lemma row_sum_R (A : mat R) i n : mat_wf A -> (i < nrows A)%nat -> (n <= ncols A)%nat ->
  foldR (fun j s => rbind (mget A i j) (fun a => Ok (s +. a)%sc)) (seq 0 n) (slit 0 0) = Ok (Rsum n (fun j => mentry A i j)).
Proof.
  intros W Hi. induction n as [|n IH]; intros Hn; [reflexivity|].
  rewrite seq_S. rewrite (ltac:(clear; intros; revert a; induction l1 as [|y l1 IHl]; intros a; simpl; [reflexivity|]; destruct (f y a); simpl; auto) :
     forall (f : nat -> R -> res R) l1 l2 a, foldR f (l1 ++ l2) a = rbind (foldR f l1 a) (foldR f l2)).
  rewrite IH by lia. cbn [rbind foldR Nat.add].
  destruct (mget_ok A i n W Hi ltac:(lia)) as [x Hx]. rewrite Hx. cbn [rbind]. rewrite (mget_entry _ _ _ _ Hx). reflexivity.
Qed.

Lemma no_warnings (sc : solver_coeffs R) s :
  dims_ok sc s = true ->
  (forall i, (i < s)%nat -> Rabs (Rsum s (fun j => mentry (sc_A sc) i j) - ventry (sc_c sc) i) <= / 100000) ->
  coeff_warnings sc = Ok [].
Proof.
  intros Hd Hrow. pose proof Hd as Hd'.
  unfold dims_ok in Hd'. rewrite !andb_true_iff, !Nat.eqb_eq, forallb_forall in Hd'. destruct Hd' as [[[[H1 H2] H3] H4] H5].
  assert (W : mat_wf (sc_A sc)).
  { apply Forall_forall. intros c Hc. apply H5 in Hc. apply Nat.eqb_eq in Hc. lia. }
  unfold coeff_warnings.
  destruct (foldR_ok (fun i ws =>
             rbind (vget (sc_c sc) i) (fun ci =>
             rbind (foldR (fun j s => rbind (mget (sc_A sc) i j) (fun a => Ok (s +. a)%sc))
                          (seq 0 (length (sc_c sc))) (slit 0 0)) (fun si =>
             Ok (if (sabs (si -. ci) >?. slit 1 (-5))%sc then ws ++ [i] else ws))))
             (fun ws => ws = []) (seq 0 (length (sc_c sc))) [] eq_refl) as (ws & Hws & ->); [|exact Hws].
  intros i ws Hi ->. apply in_seq in Hi. unfold vget.
  destruct (nth_error (sc_c sc) i) as [ci|] eqn:Ei; [|apply nth_error_None in Ei; lia]. cbn [rbind].
  rewrite row_sum_R by (try exact W; unfold ncols; lia). cbn [rbind].
  eexists. split; [reflexivity|].
  specialize (Hrow i ltac:(lia)). unfold ventry in Hrow. rewrite (nth_error_nth _ _ 0 Ei) in Hrow. rewrite H2.
  destruct (sltb _ _) eqn:E; [|reflexivity]. exfalso.
  cbn [sltb slit sabs ssub RScalar] in E. unfold Rltb in E. destruct (Rlt_dec _ _) as [Hlt|]; [|discriminate].
  unfold Rlit in Hlt. change (Z.pow_pos 10 5) with 100000%Z in Hlt. lra.
Qed.

(** dims transfer *)
Lemma dims_match d x r s : sc_match d x r -> dims_ok x s = true -> dims_ok r s = true.
Proof.
  intros Hm. unfold dims_ok. rewrite (m_b _ _ _ Hm), (m_c _ _ _ Hm), (m_Ar _ _ _ Hm), (m_A _ _ _ Hm), !map_length.
  rewrite !andb_true_iff, !forallb_forall. intros [H1 H2]. split; [exact H1|].
  intros c Hc. apply in_map_iff in Hc as (c' & <- & Hc'). rewrite map_length. apply H2, Hc'.
Qed.

(** The row-sum check in Q(sqrt d): exact, or within a rational tolerance for rational tableaux. *)
Definition row_check_exact (x : solver_coeffs qs) (s : nat) : bool :=
  forallb (fun i => qs_eqb (qsum (nth i (rows_of (sc_A x)) [])) (nth i (sc_c x) qs0)) (seq 0 s).

Lemma qsum_R d n l : length l = n -> toR d (qsum l) = Rsum n (fun j => toR d (nth j l qs0)).
Proof.
  revert l. induction n as [|n IH]; intros [|a l] Hl; try discriminate; [apply toR_0|].
  rewrite Rsum_shift. simpl. rewrite toR_add. f_equal. apply IH. auto.
Qed.

Lemma row_check_exact_ok d x r s :
  sc_match d x r -> dims_ok x s = true -> row_check_exact x s = true ->
  forall i, (i < s)%nat -> Rsum s (fun j => mentry (sc_A r) i j) = ventry (sc_c r) i.
Proof.
  intros Hm Hd Hc i Hi. unfold row_check_exact in Hc. rewrite forallb_forall in Hc.
  specialize (Hc i ltac:(apply in_seq; lia)). apply (toR_eqb d) in Hc.
  rewrite (m_c _ _ _ Hm), tab_v, <- Hc, (qsum_R d s).
  - apply Rsum_ext. intros j Hj. apply (tab_a d x r s Hm Hd); assumption.
  - apply (rows_each x s Hd), nth_In. rewrite (rows_len x s Hd). exact Hi.
Qed.
