From Verif Require Import Model.Base Model.IntFuns Spec.SmallSpecs.
Local Open Scope Z_scope.

Lemma foldR_app {A X} (f : X -> A -> res A) l1 l2 a :
  foldR f (l1 ++ l2) a = rbind (foldR f l1 a) (foldR f l2).
Proof. revert a; induction l1 as [|x l1 IH]; intros a; simpl; [reflexivity|]. destruct (f x a); simpl; auto. Qed.

Definition fact_loop (n : nat) : res Z := foldR (fun i r => int_ok (r * Z.of_nat i)) (seq 1 n) 1.

Lemma fact_loop_S n : fact_loop (S n) = rbind (fact_loop n) (fun r => int_ok (r * Z.of_nat (S n))).
Proof.
  unfold fact_loop. rewrite seq_S, foldR_app. destruct (foldR _ (seq 1 n) 1); simpl; [|reflexivity].
  destruct (int_ok _); reflexivity.
Qed.

Lemma zfact_S n : Z.of_nat (fact (S n)) = Z.of_nat (fact n) * Z.of_nat (S n).
Proof. change (fact (S n)) with (S n * fact n)%nat. rewrite Nat2Z.inj_mul. lia. Qed.

Lemma fact_loop_12 n : (n <= 12)%nat -> fact_loop n = Ok (Z.of_nat (fact n)).
Proof.
  induction n as [|n IH]; intros Hn; [reflexivity|].
  rewrite fact_loop_S, IH by lia. cbn [rbind]. rewrite <- zfact_S.
  assert (Hb : 1 <= Z.of_nat (fact (S n)) <= 479001600).
  { clear IH. do 12 (destruct n as [|n]; [rewrite !zfact_S; vm_compute; split; discriminate|]). lia. }
  unfold int_ok, INT_MIN, INT_MAX. generalize dependent (Z.of_nat (fact (S n))). intros z Hz.
  destruct (-2147483648 <=? z) eqn:E1; [|apply Z.leb_gt in E1; lia].
  destruct (z <=? 2147483647) eqn:E2; [reflexivity|apply Z.leb_gt in E2; lia].
Qed.

Lemma fact_loop_13 n : (13 <= n)%nat -> fact_loop n = Err EUB.
Proof.
  intros Hn. replace n with (13 + (n - 13))%nat by lia. generalize (n - 13)%nat as k. clear.
  induction k as [|k IH].
  - rewrite Nat.add_0_r, fact_loop_S, fact_loop_12 by lia. cbn [rbind]. rewrite !zfact_S. vm_compute. reflexivity.
  - rewrite Nat.add_succ_r, fact_loop_S, IH. reflexivity.
Qed.

Lemma factorial_exact n : 0 <= n <= 12 -> factorial n = Ok (Z.of_nat (fact (Z.to_nat n))).
Proof.
  intros Hn. unfold factorial. destruct (n <=? 1) eqn:E.
  - apply Z.leb_le in E. assert (n = 0 \/ n = 1) as [->| ->] by lia; reflexivity.
  - apply fact_loop_12. lia.
Qed.
Lemma factorial_neg n : n <= 1 -> factorial n = Ok 1.
Proof. intros Hn. unfold factorial. apply Z.leb_le in Hn. rewrite Hn. reflexivity. Qed.
Lemma factorial_overflow n : 13 <= n -> factorial n = Err EUB.
Proof.
  intros Hn. unfold factorial. destruct (n <=? 1) eqn:E; [apply Z.leb_le in E; lia|].
  apply fact_loop_13. lia.
Qed.

Lemma binom_exact n b : 0 <= b <= n -> n <= 12 -> binom_coeff n b = Ok (pascal (Z.to_nat n) (Z.to_nat b)).
Proof.
  intros Hb Hn.
  assert (Hall : forallb (fun n => forallb (fun b =>
            match binom_coeff (Z.of_nat n) (Z.of_nat b) with
            | Ok z => z =? pascal n b | _ => false end) (seq 0 (S n))) (seq 0 13) = true)
    by (vm_compute; reflexivity).
  rewrite forallb_forall in Hall. specialize (Hall (Z.to_nat n) ltac:(apply in_seq; lia)).
  rewrite forallb_forall in Hall. specialize (Hall (Z.to_nat b) ltac:(apply in_seq; lia)).
  cbv beta in Hall. rewrite !Z2Nat.id in Hall by lia.
  destruct (binom_coeff n b); [|discriminate]. apply Z.eqb_eq in Hall. subst. reflexivity.
Qed.

Lemma binom_overflow n b :
  INT_MIN <= n <= INT_MAX -> INT_MIN <= b <= INT_MAX -> 13 <= n \/ 13 <= b \/ 13 <= n - b -> binom_coeff n b = Err EUB.
Proof.
  intros _ _ H. unfold binom_coeff.
  destruct (factorial n) as [fn|e] eqn:En.
  2:{ unfold rbind. destruct (Z_le_gt_dec 13 n); [rewrite factorial_overflow in En by lia; congruence|].
      destruct (Z_le_gt_dec n 1); [rewrite factorial_neg in En by lia; discriminate|].
      rewrite factorial_exact in En by lia; discriminate. }
  cbn [rbind].
  destruct (Z_le_gt_dec 13 n); [rewrite factorial_overflow in En by lia; discriminate|].
  destruct (Z_le_gt_dec 13 b); [rewrite factorial_overflow by lia; reflexivity|].
  assert (exists fb, factorial b = Ok fb) as [fb ->].
  { destruct (Z_le_gt_dec b 1); [rewrite factorial_neg by lia; eauto|]. rewrite factorial_exact by lia; eauto. }
  cbn [rbind]. unfold int_ok at 1. destruct (_ && _) eqn:E; cbn [rbind]; [|reflexivity].
  rewrite factorial_overflow by lia. reflexivity.
Qed.
