(** A debug build that does not abort does what a release build does (explicit methods). *)
From Verif Require Import Model.Base Model.Scalar Model.LinAlg Model.CyclicBuffer Model.Newton Model.Enums Model.Options Model.Coeffs Model.ErkCoeffs Model.Erk Model.Multistep.

Definition sub {W A} (p q : M W A) : Prop := forall w, snd (p w) <> Err EAbort -> p w = q w.
Section Sub.
  Context {W : Type}.
  Lemma sub_refl {A} (p : M W A) : sub p p. Proof. intros w _. reflexivity. Qed.
  Lemma sub_assert b : sub (W := W) (assert_ false b) (assert_ true b).
  Proof. intros w H. unfold assert_ in * . destruct b; [reflexivity|]. exfalso. apply H. reflexivity. Qed.
  Lemma sub_lift {A} (r1 r2 : res A) : (r1 <> Err EAbort -> r1 = r2) -> sub (W := W) (lift r1) (lift r2).
  Proof. intros H w Hn. unfold lift in * . rewrite H by exact Hn. reflexivity. Qed.
  Lemma sub_bind {A B} (p q : M W A) (k k' : A -> M W B) : sub p q -> (forall a, sub (k a) (k' a)) -> sub (bind p k) (bind q k').
  Proof.
    intros Hp Hk w Hn. unfold bind in * . rewrite <- (Hp w) by (destruct (p w) as [w1 [a|e]]; [discriminate|simpl in * ; congruence]).
    destruct (p w) as [w1 [a|e]]; [apply Hk, Hn|reflexivity].
  Qed.
  Lemma sub_while {S R} (c : S -> bool) (b b' : S -> M W (S + R)) : (forall s, sub (b s) (b' s)) -> forall fuel s, sub (while c b fuel s) (while c b' fuel s).
  Proof.
    intros Hb. induction fuel as [|n IH]; intros s; cbn [while]; (destruct (c s); [|apply sub_refl]); [apply sub_refl|].
    apply sub_bind; [apply Hb|]. intros [s'|r]; [apply IH|apply sub_refl].
  Qed.
End Sub.

Section Release.
  Context {T : Type} {HS : Scalar T} {HL : LinAlg T} {St : Type} (j c : T) (F : functor T St).
  Let D : Env T := {| ndebug := false; junk := j; clock := c |}.
  Let Rl : Env T := {| ndebug := true; junk := j; clock := c |}.
  Ltac s1 := first [apply sub_assert|apply sub_refl|apply sub_bind; [|intros ?]|apply sub_while; intros ?
    |match goal with |- sub (if ?b then _ else _) _ => destruct b | |- sub (match ?x with _ => _ end) _ => destruct x end].
  Lemma release_erk fuel t0 t1 y0 opts oo m dt : sub (@erk_odeint T HS HL D St fuel F t0 t1 y0 opts oo m dt) (@erk_odeint T HS HL Rl St fuel F t0 t1 y0 opts oo m dt).
  Proof. unfold erk_odeint, erk_guts, erk_body, erk_control. repeat s1. Qed.
  Lemma release_ab fuel t0 t1 y0 dt : sub (@adams_bashforth T HS HL D St fuel F t0 t1 y0 1 dt) (@adams_bashforth T HS HL Rl St fuel F t0 t1 y0 1 dt).
  Proof.
    unfold adams_bashforth, ab_body, adams_bashforth_step. cbn [Z.eqb Pos.eqb].
    assert (Hb : forall y t d, @bootstrap_history T HS HL D St fuel F 1 y t d = @bootstrap_history T HS HL Rl St fuel F 1 y t d) by reflexivity.
    assert (Hg : forall h : cbuf (list T), sub (W := world T St) (lift (cb_get (@ndebug T D) h 0)) (lift (cb_get (@ndebug T Rl) h 0))).
    { intros h. apply sub_lift. unfold cb_get. cbn [ndebug D Rl negb andb]. destruct (negb _); [congruence|]. destruct (negb _); [congruence|]. reflexivity. }
    setoid_rewrite Hb || rewrite Hb. 
    repeat first [apply Hg|s1].
  Qed.
End Release.
