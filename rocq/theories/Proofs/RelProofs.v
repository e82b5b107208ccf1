(** Two runs in lockstep: a relational calculus for the model's computations. *)
From Verif Require Import Model.Base Proofs.LoopProofs.

Definition mrel {W1 W2 A B} (WR : W1 -> W2 -> Prop) (R : A -> B -> Prop) (m1 : M W1 A) (m2 : M W2 B) : Prop :=
  forall w1 w2, WR w1 w2 ->
  match m1 w1, m2 w2 with
  | (v1, Ok a), (v2, Ok b) => WR v1 v2 /\ R a b
  | (v1, Err e1), (v2, Err e2) => WR v1 v2 /\ e1 = e2
  | _, _ => False
  end.
Definition rrel {A B} (R : A -> B -> Prop) (r1 : res A) (r2 : res B) : Prop :=
  match r1, r2 with Ok a, Ok b => R a b | Err e1, Err e2 => e1 = e2 | _, _ => False end.

Section Rel.
  Context {W1 W2 : Type} (WR : W1 -> W2 -> Prop).
  Lemma mrel_ret {A B} (R : A -> B -> Prop) a b : R a b -> mrel WR R (ret a) (ret b).
  Proof. intros H w1 w2 Hw. simpl. auto. Qed.
  Lemma mrel_fail {A B} (R : A -> B -> Prop) e : mrel WR R (fail e) (fail e).
  Proof. intros w1 w2 Hw. simpl. auto. Qed.
  Lemma mrel_lift {A B} (R : A -> B -> Prop) r1 r2 : rrel R r1 r2 -> mrel WR R (lift r1) (lift r2).
  Proof. intros H w1 w2 Hw. unfold lift. destruct r1, r2; simpl in H; try contradiction; auto. Qed.
  Lemma mrel_assert nd b1 b2 : b1 = b2 -> mrel WR eq (assert_ nd b1) (assert_ nd b2).
  Proof. intros ->. unfold assert_. destruct nd; [apply mrel_ret; reflexivity|]. destruct b2; [apply mrel_ret; reflexivity|apply mrel_fail]. Qed.
  Lemma mrel_bind {A B A' B'} (R : A -> B -> Prop) (R' : A' -> B' -> Prop) m1 m2 k1 k2 :
    mrel WR R m1 m2 -> (forall a b, R a b -> mrel WR R' (k1 a) (k2 b)) -> mrel WR R' (bind m1 k1) (bind m2 k2).
  Proof.
    intros Hm Hk w1 w2 Hw. specialize (Hm w1 w2 Hw). unfold bind. destruct (m1 w1) as [v1 [a|e]], (m2 w2) as [v2 [b|e']]; try contradiction.
    - destruct Hm as [Hv Hr]. exact (Hk a b Hr v1 v2 Hv).
    - exact Hm.
  Qed.
  Lemma mrel_conseq {A B} (R R' : A -> B -> Prop) m1 m2 : (forall a b, R a b -> R' a b) -> mrel WR R m1 m2 -> mrel WR R' m1 m2.
  Proof. intros H Hm w1 w2 Hw. specialize (Hm w1 w2 Hw). destruct (m1 w1) as [v1 [a|e]], (m2 w2) as [v2 [b|e']]; intuition. Qed.
  Lemma mrel_foldM {A B X} (R : A -> B -> Prop) (b1 : X -> A -> M W1 A) (b2 : X -> B -> M W2 B) l a b :
    (forall x a b, In x l -> R a b -> mrel WR R (b1 x a) (b2 x b)) -> R a b -> mrel WR R (foldM b1 l a) (foldM b2 l b).
  Proof.
    revert a b. induction l as [|x l IH]; intros a b Hb Hr; [apply mrel_ret; exact Hr|].
    simpl. eapply mrel_bind; [apply Hb; [left; reflexivity|exact Hr]|]. intros a' b' Hr'. apply IH; [|exact Hr'].
    intros y a'' b'' Hy. apply Hb. right; exact Hy.
  Qed.
  Definition srel {A B C D} (R : A -> B -> Prop) (Q : C -> D -> Prop) (x : A + C) (y : B + D) : Prop :=
    match x, y with inl a, inl b => R a b | inr c, inr d => Q c d | _, _ => False end.
  Lemma mrel_while {S1 S2 R1 R2} (R : S1 -> S2 -> Prop) (Q : R1 -> R2 -> Prop) (c1 : S1 -> bool) (c2 : S2 -> bool)
    (b1 : S1 -> M W1 (S1 + R1)) (b2 : S2 -> M W2 (S2 + R2)) :
    (forall s1 s2, R s1 s2 -> c1 s1 = c2 s2) ->
    (forall s1 s2, R s1 s2 -> c1 s1 = true -> mrel WR (srel R Q) (b1 s1) (b2 s2)) ->
    forall fuel s1 s2, R s1 s2 -> mrel WR (srel R Q) (while c1 b1 fuel s1) (while c2 b2 fuel s2).
  Proof.
    intros Hc Hb. induction fuel as [|f IH]; intros s1 s2 Hr; cbn [while]; rewrite <- (Hc _ _ Hr); destruct (c1 s1) eqn:E;
      try (apply mrel_ret; exact Hr).
    - apply mrel_fail.
    - eapply mrel_bind; [apply (Hb _ _ Hr E)|]. intros [x1|x1] [x2|x2] Hx; simpl in Hx; try contradiction; [apply IH, Hx|apply mrel_ret; exact Hx].
  Qed.
End Rel.

Section RRel.
  Lemma rrel_bind {A B A' B'} (R : A -> B -> Prop) (R' : A' -> B' -> Prop) m1 m2 k1 k2 :
    rrel R m1 m2 -> (forall a b, R a b -> rrel R' (k1 a) (k2 b)) -> rrel R' (rbind m1 k1) (rbind m2 k2).
  Proof. intros Hm Hk. destruct m1, m2; simpl in Hm; try contradiction; [apply Hk, Hm|exact Hm]. Qed.
  Lemma rrel_eq {A} (r1 r2 : res A) : r1 = r2 -> rrel eq r1 r2.
  Proof. intros ->. destruct r2; reflexivity. Qed.
End RRel.
