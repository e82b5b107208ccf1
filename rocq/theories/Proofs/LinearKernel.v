(** A square matrix with trivial kernel is invertible. *)
From Coq Require Import Reals Lra.
From Verif Require Import Model.Base Model.Scalar Model.LinAlg Spec.Sums Spec.NewtonSpec Proofs.SumsProofs Proofs.RVec Proofs.Neumann.
Local Open Scope R_scope.

Definition injective (n : nat) (A : nat -> nat -> R) : Prop :=
  forall x : nat -> R, (forall i, (i < n)%nat -> Rsum n (fun j => A i j * x j) = 0) -> forall j, (j < n)%nat -> x j = 0.

Lemma row_or n (P : nat -> R) : (exists i, (i < n)%nat /\ P i <> 0) \/ (forall i, (i < n)%nat -> P i = 0).
Proof.
  induction n as [|n IH]; [right; intros; lia|]. destruct IH as [(i & Hi & H)|H]; [left; exists i; split; [lia|exact H]|].
  destruct (Req_dec (P n) 0) as [E|E]; [right|left; exists n; split; [lia|exact E]]. intros i Hi. destruct (Nat.eq_dec i n) as [->|]; [exact E|apply H; lia].
Qed.

Definition swap (r n i : nat) : nat := if Nat.eq_dec i r then n else if Nat.eq_dec i n then r else i.
Lemma swap_lt r n i m : (r < m)%nat -> (n < m)%nat -> (i < m)%nat -> (swap r n i < m)%nat.
Proof. unfold swap. intros. destruct (Nat.eq_dec i r); [lia|]. destruct (Nat.eq_dec i n); lia. Qed.
Lemma swap_swap r n i : swap r n (swap r n i) = i.
Proof. unfold swap. destruct (Nat.eq_dec i r) as [->|H1]; [destruct (Nat.eq_dec n r); [lia|]; destruct (Nat.eq_dec n n); lia|]. destruct (Nat.eq_dec i n) as [->|H2]; [destruct (Nat.eq_dec r r); lia|]. destruct (Nat.eq_dec i r); [lia|]. destruct (Nat.eq_dec i n); lia. Qed.

Lemma solve_all n : forall A, injective n A -> forall b : nat -> R, exists x, forall i, (i < n)%nat -> Rsum n (fun j => A i j * x j) = b i.
Proof.
  induction n as [|n IH]; intros A HA b; [exists b; intros; lia|].
  destruct (row_or (S n) (fun i => A i n)) as [(r & Hr & Hp)|Hz].
  2:{ exfalso. assert (E : delta n n = 0); [|unfold delta in E; destruct (Nat.eq_dec n n); [lra|congruence]].
      apply (HA (fun j => delta j n)); [|lia]. intros i Hi. rewrite delta_sum_r by lia. apply Hz, Hi. }
  set (sw := swap r n). set (piv := A r n) in * .
  set (A' := fun i j => A (sw i) j - A (sw i) n / piv * A r j).
  assert (Hsw : forall i, (i < S n)%nat -> (sw i < S n)%nat) by (intros; apply swap_lt; lia).
  (* x on the first n components, extended by the pivot equation *)
  set (ext := fun (x : nat -> R) (v : R) j => if Nat.eq_dec j n then (v - Rsum n (fun j => A r j * x j)) / piv else x j).
  assert (Hext : forall x v i, Rsum (S n) (fun j => A i j * ext x v j) = Rsum n (fun j => A i j * x j) + A i n * ((v - Rsum n (fun j => A r j * x j)) / piv)).
  { intros x v i. cbn [Rsum]. f_equal; [|unfold ext; destruct (Nat.eq_dec n n); [reflexivity|congruence]].
    apply Rsum_ext. intros j Hj. unfold ext. destruct (Nat.eq_dec j n); [lia|reflexivity]. }
  assert (HA' : forall x i, Rsum n (fun j => A' i j * x j) = Rsum n (fun j => A (sw i) j * x j) - A (sw i) n / piv * Rsum n (fun j => A r j * x j)).
  { intros x i. rewrite <- Rsum_scal, <- Rsum_minus. apply Rsum_ext. intros j _. unfold A'. ring. }
  assert (Hrow : forall i, (i < S n)%nat -> i <> r -> exists i', (i' < n)%nat /\ sw i' = i).
  { intros i Hi Hne. exists (sw i). split; [|apply swap_swap]. unfold sw, swap. destruct (Nat.eq_dec i r); [congruence|]. destruct (Nat.eq_dec i n); lia. }
  assert (Hinj : injective n A').
  { intros x Hx j Hj. assert (E : ext x 0 j = x j) by (unfold ext; destruct (Nat.eq_dec j n); [lia|reflexivity]). rewrite <- E. apply (HA (ext x 0)); [|lia].
    intros i Hi. rewrite Hext. destruct (Nat.eq_dec i r) as [->|Hne]; [fold piv; field; exact Hp|]. destruct (Hrow i Hi Hne) as (i' & Hi' & <-).
    specialize (Hx i' Hi'). rewrite HA' in Hx. eapply eq_trans; [|exact Hx]. field. exact Hp. }
  destruct (IH A' Hinj (fun i => b (sw i) - A (sw i) n / piv * b r)) as (x & Hx).
  exists (ext x (b r)). intros i Hi. rewrite Hext. destruct (Nat.eq_dec i r) as [->|Hne]; [fold piv; field; exact Hp|]. destruct (Hrow i Hi Hne) as (i' & Hi' & <-).
  specialize (Hx i' Hi'). cbv beta in Hx. rewrite HA' in Hx.
  replace (Rsum n (fun j => A (sw i') j * x j)) with (b (sw i') - A (sw i') n / piv * b r + A (sw i') n / piv * Rsum n (fun j => A r j * x j)) by lra. field. exact Hp.
Qed.

Lemma finite_choice n (P : nat -> (nat -> R) -> Prop) : (forall k, (k < n)%nat -> exists x, P k x) -> exists X : nat -> nat -> R, forall k, (k < n)%nat -> P k (X k).
Proof.
  induction n as [|n IH]; intros H; [exists (fun _ _ => 0); intros; lia|]. destruct IH as (X & HX); [intros; apply H; lia|]. destruct (H n ltac:(lia)) as (x & Hx).
  exists (fun k => if Nat.eq_dec k n then x else X k). intros k Hk. destruct (Nat.eq_dec k n) as [->|]; [exact Hx|apply HX; lia].
Qed.

Lemma injective_invertible A n : nrows A = n -> ncols A = n -> injective n (mentry A) -> invertible A.
Proof.
  intros Hr Hc Hi.
  destruct (finite_choice n (fun k x => forall i, (i < n)%nat -> Rsum n (fun j => mentry A i j * x j) = delta i k)) as (X & HX).
  { intros k _. exact (solve_all n (mentry A) Hi (fun i => delta i k)). }
  exists (mtab n n (fun j k => X k j)). unfold is_inverse. rewrite Hr, Hc, mtab_nrows, mtab_ncols. repeat (split; [reflexivity|]).
  assert (E1 : forall i j, (i < n)%nat -> (j < n)%nat -> Rsum n (fun k => mentry A i k * mentry (mtab n n (fun j k => X k j)) k j) = delta i j).
  { intros i j Hi' Hj. rewrite <- (HX j Hj i Hi'). apply Rsum_ext. intros k Hk. rewrite mtab_entry by assumption. reflexivity. }
  intros i j Hi' Hj. split; [apply E1; assumption|].
  set (B := mtab n n (fun j k => X k j)) in * .
  enough (Rsum n (fun k => mentry B i k * mentry A k j) - delta i j = 0) by lra.
  apply (Hi (fun i => Rsum n (fun k => mentry B i k * mentry A k j) - delta i j)); [|exact Hi'].
  intros l Hl. rewrite (Rsum_ext n _ (fun i => mentry A l i * Rsum n (fun k => mentry B i k * mentry A k j) - mentry A l i * delta i j)) by (intros; ring).
  rewrite Rsum_minus, delta_sum_r by exact Hj.
  rewrite (Rsum_ext n _ (fun i => Rsum n (fun k => mentry A l i * mentry B i k * mentry A k j))) by (intros; rewrite <- Rsum_scal; apply Rsum_ext; intros; ring).
  rewrite Rsum_swap. rewrite (Rsum_ext n _ (fun k => delta l k * mentry A k j)) by (intros k Hk; rewrite Rsum_scal_r, E1 by assumption; reflexivity).
  rewrite delta_sum by exact Hl. ring.
Qed.
