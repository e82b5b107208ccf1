(** Writing down the calls changes nothing. *)
From Verif Require Import Model.Base Model.Scalar Model.LinAlg Model.Newton Spec.NewtonSpec
  Proofs.LoopProofs Proofs.RelProofs Proofs.NewtonProofs.

Section Rel.
  Context {T : Type} {HS : Scalar T} {HL : LinAlg T} {HE : Env T} {S1 S2 : Type} (WR : S1 -> S2 -> Prop) (F1 : nfunctor T S1) (F2 : nfunctor T S2).
  Hypothesis Hf : forall x, mrel WR eq (n_fun F1 x) (n_fun F2 x).
  Hypothesis HJ : forall x, mrel WR eq (n_jac F1 x) (n_jac F2 x).

  Lemma mrel_lift_eq {A} (r : res A) : mrel WR eq (lift r) (lift r).
  Proof. apply mrel_lift, rrel_eq. reflexivity. Qed.
  Lemma mrel_bind_eq {A B} (m1 : M S1 A) (m2 : M S2 A) (k1 : A -> M S1 B) (k2 : A -> M S2 B) :
    mrel WR eq m1 m2 -> (forall a, mrel WR eq (k1 a) (k2 a)) -> mrel WR eq (bind m1 k1) (bind m2 k2).
  Proof. intros Hm Hk. eapply mrel_bind; [exact Hm|]. intros a b ->. apply Hk. Qed.
  Lemma mrel_while_eq {S R} (c : S -> bool) (b1 : S -> M S1 (S + R)) (b2 : S -> M S2 (S + R)) fuel s :
    (forall s, mrel WR eq (b1 s) (b2 s)) -> mrel WR eq (while c b1 fuel s) (while c b2 fuel s).
  Proof.
    intros Hb. revert s. induction fuel as [|f IH]; intros s; cbn [while]; (destruct (c s); [|apply mrel_ret; reflexivity]).
    - apply mrel_fail.
    - apply mrel_bind_eq; [apply Hb|]. intros [s'|r]; [apply IH|apply mrel_ret; reflexivity].
  Qed.

  Lemma newton_rel x opts stats quiet : mrel WR eq (newton_iterate F1 x opts stats quiet) (newton_iterate F2 x opts stats quiet).
  Proof.
    intros w1 w2 Hw. rewrite !dispatch. revert w1 w2 Hw. unfold newton_iterate_impl, newton_impl.
    apply mrel_bind_eq; [apply Hf|intros r]. apply mrel_bind_eq; [apply mrel_lift_eq|intros res2]. apply mrel_bind_eq; [apply HJ|intros J].
    apply mrel_bind_eq; [|intros [z|o]; apply mrel_ret; reflexivity].
    apply mrel_while_eq. intros s. unfold newton_body.
    destruct (newton_direction _ _ _ _ _ _) as [[d LUP]|[e| | |]]; try (apply mrel_ret; reflexivity); try apply mrel_fail.
    apply mrel_bind_eq; [apply mrel_lift_eq|intros d']. apply mrel_bind_eq; [apply mrel_lift_eq|intros xn].
    apply mrel_bind_eq; [destruct (negb _); [apply HJ|apply mrel_ret; reflexivity]|intros J'].
    apply mrel_bind_eq; [apply Hf|intros r']. apply mrel_bind_eq; [apply mrel_lift_eq|intros res2']. apply mrel_ret. reflexivity.
  Qed.
  Lemma broyden_rel x opts stats quiet : mrel WR eq (broyden_iterate F1 x opts stats quiet) (broyden_iterate F2 x opts stats quiet).
  Proof.
    unfold broyden_iterate. apply mrel_bind_eq; [apply Hf|intros r]. apply mrel_bind_eq; [apply mrel_lift_eq|intros res2].
    apply mrel_bind_eq; [|intros [z|[]]; apply mrel_ret; reflexivity].
    apply mrel_while_eq. intros s. unfold broyden_body.
    repeat (apply mrel_bind_eq; [first [apply Hf|apply mrel_lift_eq]|intros ?]). apply mrel_ret. reflexivity.
  Qed.
  Lemma approx_rel y h : mrel WR eq (approx_jacobi_matrix F1 y h) (approx_jacobi_matrix F2 y h).
  Proof.
    unfold approx_jacobi_matrix. apply mrel_bind_eq; [apply Hf|intros _]. apply mrel_bind_eq; [|intros s; apply mrel_ret; reflexivity].
    apply mrel_foldM; [|reflexivity]. intros j a b _ ->. unfold approx_column. destruct b as [[Ja yp] ym].
    repeat (apply mrel_bind_eq; [first [apply Hf|apply mrel_lift_eq]|intros ?]). apply mrel_ret. reflexivity.
  Qed.
  Lemma verify_rel y : mrel WR eq (verify_jacobi_matrix F1 y) (verify_jacobi_matrix F2 y).
  Proof.
    unfold verify_jacobi_matrix. apply mrel_bind_eq; [apply approx_rel|intros Ja]. apply mrel_bind_eq; [apply HJ|intros Jf].
    apply mrel_bind_eq; [apply mrel_lift_eq|intros m]. apply mrel_ret. reflexivity.
  Qed.
End Rel.

Section Logged.
  Context {T : Type} {HS : Scalar T} {HL : LinAlg T} {HE : Env T} {St : Type} (F : nfunctor T St).
  Definition same_st (s : St) (sl : St * list (ncall T)) : Prop := fst sl = s.
  Lemma nl_fun_rel x : mrel same_st eq (n_fun F x) (n_fun (nlogged F) x).
  Proof.
    intros s [s2 l] Hw. unfold same_st in Hw. simpl in Hw. subst s2. simpl. destruct (n_fun F x s) as [s1 [v|e]]; split; reflexivity.
  Qed.
  Lemma nl_jac_rel x : mrel same_st eq (n_jac F x) (n_jac (nlogged F) x).
  Proof.
    intros s [s2 l] Hw. unfold same_st in Hw. simpl in Hw. subst s2. simpl. destruct (n_jac F x s) as [s1 [v|e]]; split; reflexivity.
  Qed.
  Lemma run_logged {A} (m : M St A) (m' : M (St * list (ncall T)) A) s s' a l :
    mrel same_st eq m m' -> m s = (s', Ok a) -> exists l', m' (s, l) = ((s', l'), Ok a).
  Proof.
    intros Hr Hm. specialize (Hr s (s, l) eq_refl). rewrite Hm in Hr. destruct (m' (s, l)) as [[s2 l2] [b|e]]; [|contradiction].
    destruct Hr as [H1 ->]. unfold same_st in H1. simpl in H1. subst s2. eauto.
  Qed.
  Lemma newton_logged x opts stats quiet s s' out l : newton_iterate F x opts stats quiet s = (s', Ok out) ->
    exists l', newton_iterate (nlogged F) x opts stats quiet (s, l) = ((s', l'), Ok out).
  Proof. apply run_logged, newton_rel; [apply nl_fun_rel|apply nl_jac_rel]. Qed.
  Lemma broyden_logged x opts stats quiet s s' out l : broyden_iterate F x opts stats quiet s = (s', Ok out) ->
    exists l', broyden_iterate (nlogged F) x opts stats quiet (s, l) = ((s', l'), Ok out).
  Proof. apply run_logged, broyden_rel, nl_fun_rel. Qed.
End Logged.
