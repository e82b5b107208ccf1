(** The kernels of [choice_LA] also meet the exactness classes for the factorisation and the inverse. *)
From Coq Require Import Reals Lra ClassicalEpsilon.
From Verif Require Import Model.Base Model.Scalar Model.LinAlg Spec.Sums Spec.NewtonSpec Spec.IrkSpec Proofs.SumsProofs Proofs.RVec Proofs.ChoiceInstance.
Local Open Scope R_scope.

Lemma mneg_entry (A : mat R) i j : (j < ncols A)%nat -> mentry (mneg A) i j = - mentry A i j.
Proof.
  intros Hj. unfold mneg, mentry. cbn [mcols]. rewrite (nth_indep (map vneg (mcols A)) [] (vneg [])) by (rewrite map_length; exact Hj). rewrite (map_nth vneg).
  fold (ventry (vneg (nth j (mcols A) [])) i). rewrite ventry_vneg. unfold ventry. ring.
Qed.
Lemma inverse_tab A n (g g' : nat -> nat -> R) : (forall i j, (i < n)%nat -> (j < n)%nat -> mentry A i j = g i j) -> nrows A = n -> ncols A = n ->
  (forall i j, (i < n)%nat -> (j < n)%nat -> Rsum n (fun k => g i k * g' k j) = delta i j /\ Rsum n (fun k => g' i k * g k j) = delta i j) ->
  is_inverse A (mtab n n g').
Proof.
  intros E n1 n2 Hp. split; [congruence|]. split; [rewrite mtab_nrows; congruence|]. split; [rewrite mtab_ncols; congruence|]. rewrite n1.
  intros i j Hi Hj. destruct (Hp i j Hi Hj) as [K1 K2]. split; [rewrite <- K1|rewrite <- K2]; apply Rsum_ext; intros k Hk; rewrite E, mentry_vt by assumption; reflexivity.
Qed.
Lemma eye_invertible n : invertible (mtab n n delta).
Proof.
  exists (mtab n n delta). apply (inverse_tab _ n delta delta); [intros; apply mentry_vt; assumption|apply mtab_nrows|apply mtab_ncols|].
  intros i j Hi Hj. split; rewrite <- (delta_sum n i (fun k => delta k j)) by exact Hi; apply Rsum_ext; intros k Hk; reflexivity.
Qed.
#[export] Instance choice_lu : ExactLU choice_LA.
Proof.
  split. intros A HA. exists delta, (mentry A), delta. split; [reflexivity|]. cbv zeta. set (n := nrows A).
  assert (n2 : ncols A = n) by (destruct HA as (B & E & _); symmetry; exact E).
  split; [apply eye_invertible|]. split; [|split].
  - intros i j Hi Hj. apply Rsum_ext. intros k Hk. rewrite !mentry_vt by assumption. reflexivity.
  - intros b Hb. destruct (some_solution_spec (mneg (mtab n n delta)) b) as (x & E1 & E2).
    + exists (mtab n n (fun i j => - delta i j)). apply (inverse_tab _ n (fun i j => - delta i j)).
      * intros i j Hi Hj. rewrite mneg_entry, mentry_vt by (try rewrite mtab_ncols; assumption). reflexivity.
      * cbn [mneg nrows]. apply mtab_nrows.
      * unfold ncols, mneg. cbn [mcols]. rewrite map_length. apply (mtab_ncols n n).
      * intros i j Hi Hj. split; rewrite <- (delta_sum n i (fun k => delta k j)) by exact Hi; apply Rsum_ext; intros k Hk; ring.
    + cbn [mneg nrows]. rewrite mtab_nrows. exact Hb.
    + exists x. split; [exact E1|]. replace n with (ncols (mneg (mtab n n delta))) at 3; [exact E2|]. unfold ncols, mneg. cbn [mcols]. rewrite map_length. apply (mtab_ncols n n).
  - intros b Hb. destruct (some_solution_spec (mtab n n (mentry A)) b) as (x & E1 & E2).
    + destruct HA as (B & K1 & K2 & K3 & K4). exists (mtab n n (mentry B)). apply (inverse_tab _ n (mentry A)); [intros; apply mentry_vt; assumption|apply mtab_nrows|apply mtab_ncols|]. exact K4.
    + rewrite mtab_nrows. exact Hb.
    + exists x. split; [exact E1|]. rewrite mtab_ncols in E2. exact E2.
Qed.
#[export] Instance choice_inverse : ExactInverse choice_LA.
Proof.
  split.
  - intros A f n2. simpl. unfold some_inverse. destruct (excluded_middle_informative (invertible A)) as [HA|]; [|discriminate].
    intros E. injection E as <-. set (B := epsilon _ _). assert (HB : is_inverse A B) by (unfold B; apply epsilon_spec; exact HA).
    destruct HB as (K1 & K2 & K3 & K4). apply (inverse_tab _ (nrows A) (mentry A)); [reflexivity|reflexivity|symmetry; exact n2|exact K4].
  - intros A HA. simpl. unfold some_inverse. destruct (excluded_middle_informative (invertible A)) as [_|H]; [discriminate|contradiction].
Qed.
