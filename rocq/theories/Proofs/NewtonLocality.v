(** A root finder depends on the system only through the calls it makes (C131). *)
From Verif Require Import Model.Base Model.Scalar Model.LinAlg Model.Newton.
From Verif Require Import Spec.NewtonSpec Spec.MsLocalitySpec.

Section Local.
  Context {T : Type} {HS : Scalar T} {HL : LinAlg T} {HE : Env T} {St : Type} (F G : nfunctor T St).
  Local Notation S1 := (St * list (ncall T))%type.
  Definition nlocal {A} (p : M S1 A) (q : M St A) : Prop :=
    forall s s' a, p s = (s', Ok a) -> exists l, snd s' = snd s ++ l /\ (Forall (nagree_at F G) l -> q (fst s) = (fst s', Ok a)).

  Lemma nl_lift {A} (x : res A) : nlocal (lift x) (lift x).
  Proof. intros s s' a E. injection E as <- ->. exists []. rewrite app_nil_r. split; reflexivity. Qed.
  Lemma nl_ret {A} (x : A) : nlocal (ret x) (ret x).
  Proof. apply (nl_lift (Ok x)). Qed.
  Lemma nl_fail {A} e : nlocal (A := A) (fail e) (fail e).
  Proof. intros s s' a E. discriminate E. Qed.
  Lemma nl_bind {A B} (p : M S1 A) q (k : A -> M S1 B) k' : nlocal p q -> (forall a, nlocal (k a) (k' a)) -> nlocal (bind p k) (bind q k').
  Proof.
    intros Hp Hk s s' b E. unfold bind in E. destruct (p s) as [s1 [a|e]] eqn:E1; [|discriminate E].
    destruct (Hp _ _ _ E1) as (l & H1 & H2). destruct (Hk a _ _ _ E) as (l' & K1 & K2). exists (l ++ l'). rewrite K1, H1, app_assoc. split; [reflexivity|].
    intros Hf. apply Forall_app in Hf. destruct Hf as [Hf1 Hf2]. unfold bind. rewrite (H2 Hf1). apply K2, Hf2.
  Qed.
  Lemma nl_fun x : nlocal (n_fun (nlogged F) x) (n_fun G x).
  Proof.
    intros [s l] s' v E. cbn [nlogged n_fun fst snd] in E. destruct (n_fun F x s) as [s1 [u|e]] eqn:E1; [|discriminate E]. injection E as <- ->.
    exists [NFun x v]. split; [reflexivity|]. intros Hf. inversion_clear Hf as [|? ? Ha _]. cbn in Ha |- * . rewrite <- Ha. exact E1.
  Qed.
  Lemma nl_jac x : nlocal (n_jac (nlogged F) x) (n_jac G x).
  Proof.
    intros [s l] s' v E. cbn [nlogged n_jac fst snd] in E. destruct (n_jac F x s) as [s1 [u|e]] eqn:E1; [|discriminate E]. injection E as <- ->.
    exists [NJac x v]. split; [reflexivity|]. intros Hf. inversion_clear Hf as [|? ? Ha _]. cbn in Ha |- * . rewrite <- Ha. exact E1.
  Qed.
  Lemma nl_foldM {A X} (b : X -> A -> M S1 A) b' : (forall x a, nlocal (b x a) (b' x a)) -> forall l a, nlocal (foldM b l a) (foldM b' l a).
  Proof. intros Hb. induction l as [|x l IH]; intros a; cbn [foldM]; [apply nl_ret|]. apply nl_bind; [apply Hb|apply IH]. Qed.
  Lemma nl_while {S R} (c : S -> bool) (b : S -> M S1 (S + R)) b' : (forall s, nlocal (b s) (b' s)) -> forall fuel s, nlocal (while c b fuel s) (while c b' fuel s).
  Proof.
    intros Hb. induction fuel as [|n IH]; intros s; cbn [while]; (destruct (c s); [|apply nl_ret]); [apply nl_fail|].
    apply nl_bind; [apply Hb|]. intros [s'|r]; [apply IH|apply nl_ret].
  Qed.
  Ltac nl1 := first
    [ apply nl_lift | apply nl_ret | apply nl_fail | apply nl_fun | apply nl_jac
    | apply nl_bind; [|intros ?] | apply nl_foldM; intros ? ? | apply nl_while; intros ?
    | match goal with |- nlocal (if ?b then _ else _) _ => destruct b
      | |- nlocal (match ?x with _ => _ end) _ => destruct x end | progress cbv zeta ].
  Lemma nl_impl rj pc ls q x opts st : nlocal (newton_impl (nlogged F) rj pc ls q x opts st) (newton_impl G rj pc ls q x opts st).
  Proof. unfold newton_impl, newton_body. repeat nl1. Qed.
  Lemma nl_newton x opts st q : nlocal (newton_iterate (nlogged F) x opts st q) (newton_iterate G x opts st q).
  Proof.
    unfold newton_iterate, newton_iterate_impl. cbv zeta.
    destruct (o_refresh_jac opts >? 0)%Z, (o_precondition opts), (o_time_internals opts), (o_limit_step opts), q; cbn [Nat.add]; apply nl_impl.
  Qed.
  Lemma nl_broyden x opts st q : nlocal (broyden_iterate (nlogged F) x opts st q) (broyden_iterate G x opts st q).
  Proof. unfold broyden_iterate, broyden_body. repeat nl1. Qed.
  Lemma nl_approx x h : nlocal (approx_jacobi_matrix (nlogged F) x h) (approx_jacobi_matrix G x h).
  Proof. unfold approx_jacobi_matrix, approx_column. repeat nl1. Qed.
  Lemma nl_verify x : nlocal (verify_jacobi_matrix (nlogged F) x) (verify_jacobi_matrix G x).
  Proof. unfold verify_jacobi_matrix. repeat first [apply nl_approx|nl1]. Qed.
End Local.

(** the calls do not depend on G *)
Lemma nlocal_all {T St A} (F : nfunctor T St) (p : M (St * list (ncall T)) A) (q : nfunctor T St -> M St A) :
  (forall G, nlocal F G p (q G)) -> forall s l s' l' a, p (s, l) = ((s', l'), Ok a) ->
  exists calls, l' = l ++ calls /\ forall G, Forall (nagree_at F G) calls -> q G s = (s', Ok a).
Proof.
  intros H s l s' l' a E. destruct (H F _ _ _ E) as (c & H1 & _). exists c. split; [exact H1|].
  intros G Hf. destruct (H G _ _ _ E) as (c' & K1 & K2). cbn [fst snd] in * . rewrite H1 in K1. apply app_inv_head in K1. subst c'. exact (K2 Hf).
Qed.
