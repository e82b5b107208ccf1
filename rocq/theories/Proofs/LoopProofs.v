(** Reasoning about the monad and the loops of Model.Base. *)
From Verif Require Import Model.Base Model.LinAlg.
Local Open Scope mon_scope.

Lemma bind_ok {W A B} (m : M W A) (k : A -> M W B) w w' b :
  bind m k w = (w', Ok b) -> exists w1 a, m w = (w1, Ok a) /\ k a w1 = (w', Ok b).
Proof. unfold bind. destruct (m w) as [w1 [a|e]]; [eauto|discriminate]. Qed.
Lemma bind_run {W A B} (m : M W A) (k : A -> M W B) w w1 a : m w = (w1, Ok a) -> bind m k w = k a w1.
Proof. unfold bind. intros ->. reflexivity. Qed.
Lemma lift_ok {W A} (r : res A) (w w' : W) a : lift r w = (w', Ok a) -> w' = w /\ r = Ok a.
Proof. unfold lift. intros [= <- ->]. auto. Qed.
Lemma ret_ok {W A} (x : A) (w w' : W) a : ret x w = (w', Ok a) -> w' = w /\ x = a.
Proof. unfold ret. intros [= <- ->]. auto. Qed.
Lemma rbind_ok {A B} (m : res A) (k : A -> res B) b : rbind m k = Ok b -> exists a, m = Ok a /\ k a = Ok b.
Proof. destruct m; [simpl; eauto|discriminate]. Qed.
Lemma assert_ok {W} nd b (w w' : W) u : assert_ nd b w = (w', Ok u) -> w' = w /\ (nd = false -> b = true).
Proof. unfold assert_, ret, fail. destruct nd, b; intros [= <-]; auto. Qed.
Lemma in_world_ok {T St A} (m : M St A) (w w' : world T St) a : in_world m w = (w', Ok a) ->
  exists s, m (w_st w) = (s, Ok a) /\ w' = World s (w_out w).
Proof. unfold in_world. destruct (m (w_st w)) as [s r]. intros [= <- ->]. eauto. Qed.

Lemma foldM_app {W A X} (body : X -> A -> M W A) l1 l2 a w :
  foldM body (l1 ++ l2) a w = bind (foldM body l1 a) (foldM body l2) w.
Proof.
  revert a w. induction l1 as [|x l1 IH]; intros a w; [reflexivity|]. simpl. unfold bind.
  destruct (body x a w) as [w1 [a1|e]]; [|reflexivity]. rewrite IH. reflexivity.
Qed.
Lemma foldR_app {A X} (body : X -> A -> res A) l1 l2 a :
  foldR body (l1 ++ l2) a = rbind (foldR body l1 a) (foldR body l2).
Proof.
  revert a. induction l1 as [|x l1 IH]; intros a; [reflexivity|]. simpl.
  destruct (body x a); [apply IH|reflexivity].
Qed.
Lemma foldR_ext {A X} (f g : X -> A -> res A) l a : (forall x a, In x l -> f x a = g x a) -> foldR f l a = foldR g l a.
Proof.
  revert a. induction l as [|x l IH]; intros a Hfg; [reflexivity|]. simpl. rewrite Hfg by (left; reflexivity).
  destruct (g x a); [|reflexivity]. simpl. apply IH. intros; apply Hfg. right. assumption.
Qed.
(** invariant along [for i = lo .. lo+n-1] *)
Lemma foldM_seq {W A} (body : nat -> A -> M W A) (I : nat -> W -> A -> Prop) lo n a w w' a' :
  (forall i w a w' a', (lo <= i < lo + n)%nat -> I i w a -> body i a w = (w', Ok a') -> I (S i) w' a') ->
  I lo w a -> foldM body (seq lo n) a w = (w', Ok a') -> I (lo + n)%nat w' a'.
Proof.
  revert lo a w. induction n as [|n IH]; intros lo a w Hb HI Hf.
  - simpl in Hf. apply ret_ok in Hf. destruct Hf as [-> ->]. rewrite Nat.add_0_r. exact HI.
  - simpl in Hf. apply bind_ok in Hf. destruct Hf as (w1 & a1 & H1 & H2).
    replace (lo + S n)%nat with (S lo + n)%nat by lia. eapply IH; [|eapply Hb; [|exact HI|exact H1]; lia|exact H2].
    intros i w0 a0 w2 a2 Hi. apply Hb. lia.
Qed.
Lemma foldR_seq {A} (body : nat -> A -> res A) (I : nat -> A -> Prop) lo n a a' :
  (forall i a a', (lo <= i < lo + n)%nat -> I i a -> body i a = Ok a' -> I (S i) a') ->
  I lo a -> foldR body (seq lo n) a = Ok a' -> I (lo + n)%nat a'.
Proof.
  revert lo a. induction n as [|n IH]; intros lo a Hb HI Hf.
  - simpl in Hf. injection Hf as <-. rewrite Nat.add_0_r. exact HI.
  - simpl in Hf. apply rbind_ok in Hf. destruct Hf as (a1 & H1 & H2).
    replace (lo + S n)%nat with (S lo + n)%nat by lia. eapply IH; [|eapply Hb; [|exact HI|exact H1]; lia|exact H2].
    intros i a0 a2 Hi. apply Hb. lia.
Qed.
(** total version *)
Lemma foldM_seq_total {W A} (body : nat -> A -> M W A) (I : nat -> W -> A -> Prop) lo n a w :
  (forall i w a, (lo <= i < lo + n)%nat -> I i w a -> exists w' a', body i a w = (w', Ok a') /\ I (S i) w' a') ->
  I lo w a -> exists w' a', foldM body (seq lo n) a w = (w', Ok a') /\ I (lo + n)%nat w' a'.
Proof.
  revert lo a w. induction n as [|n IH]; intros lo a w Hb HI.
  - exists w, a. rewrite Nat.add_0_r. split; [reflexivity|exact HI].
  - destruct (Hb lo w a ltac:(lia) HI) as (w1 & a1 & H1 & HI1).
    destruct (IH (S lo) a1 w1) as (w2 & a2 & H2 & HI2); [|exact HI1|].
    + intros i w0 a0 Hi. apply Hb. lia.
    + exists w2, a2. simpl. rewrite (bind_run _ _ _ _ _ H1). split; [exact H2|].
      replace (lo + S n)%nat with (S lo + n)%nat by lia. exact HI2.
Qed.
Lemma foldR_seq_total {A} (body : nat -> A -> res A) (I : nat -> A -> Prop) lo n a :
  (forall i a, (lo <= i < lo + n)%nat -> I i a -> exists a', body i a = Ok a' /\ I (S i) a') ->
  I lo a -> exists a', foldR body (seq lo n) a = Ok a' /\ I (lo + n)%nat a'.
Proof.
  revert lo a. induction n as [|n IH]; intros lo a Hb HI.
  - exists a. rewrite Nat.add_0_r. split; [reflexivity|exact HI].
  - destruct (Hb lo a ltac:(lia) HI) as (a1 & H1 & HI1).
    destruct (IH (S lo) a1) as (a2 & H2 & HI2); [|exact HI1|].
    + intros i a0 Hi. apply Hb. lia.
    + exists a2. simpl. rewrite H1. simpl. split; [exact H2|].
      replace (lo + S n)%nat with (S lo + n)%nat by lia. exact HI2.
Qed.

Section While.
  Context {W S R : Type} (cond : S -> bool) (body : S -> M W (S + R)).

  Lemma while_inv (I : W -> S -> Prop) (Q : W -> R -> Prop) fuel s w w' x :
    (forall w s w' s', I w s -> cond s = true -> body s w = (w', Ok (inl s')) -> I w' s') ->
    (forall w s w' r, I w s -> cond s = true -> body s w = (w', Ok (inr r)) -> Q w' r) ->
    I w s -> while cond body fuel s w = (w', Ok x) ->
    match x with inl s' => I w' s' /\ cond s' = false | inr r => Q w' r end.
  Proof.
    intros HI HQ. revert s w. induction fuel as [|f IH]; intros s w H0 Hw; simpl in Hw.
    - destruct (cond s) eqn:E; [discriminate|]. apply ret_ok in Hw. destruct Hw as [-> <-]. auto.
    - destruct (cond s) eqn:E.
      + apply bind_ok in Hw. destruct Hw as (w1 & [s1|r1] & H1 & H2).
        * eapply IH; [eapply HI; eauto|exact H2].
        * apply ret_ok in H2. destruct H2 as [-> <-]. eapply HQ; eauto.
      + apply ret_ok in Hw. destruct Hw as [-> <-]. auto.
  Qed.

  (** more fuel does not change a finished loop *)
  Lemma while_more f f' s w w' x : (f <= f')%nat -> while cond body f s w = (w', Ok x) -> while cond body f' s w = (w', Ok x).
  Proof.
    revert f' s w. induction f as [|f IH]; intros f' s w Hl Hw; simpl in Hw.
    - destruct (cond s) eqn:E; [discriminate|]. destruct f'; simpl; rewrite E; exact Hw.
    - destruct f' as [|f']; [lia|]. simpl. destruct (cond s) eqn:E; [|exact Hw].
      apply bind_ok in Hw. destruct Hw as (w1 & r & H1 & H2). rewrite (bind_run _ _ _ _ _ H1).
      destruct r; [apply IH; [lia|exact H2]|exact H2].
  Qed.

End While.

(** Termination: a measure that decreases while the invariant holds; [mu + 1] iterations are enough. *)
Lemma while_total {W S R} (cond : S -> bool) (body : S -> M W (S + R)) (I : W -> S -> Prop) (mu : S -> nat) :
  (forall w s, I w s -> cond s = true -> exists w' x, body s w = (w', Ok x) /\
     match x with inl s' => I w' s' /\ (mu s' < mu s)%nat | inr _ => True end) ->
  forall s w, I w s -> exists w' x, while cond body (Datatypes.S (mu s)) s w = (w', Ok x).
Proof.
  intros Hb s w HI. remember (mu s) as n eqn:En. assert (Hn : (mu s <= n)%nat) by lia. clear En.
  revert s w HI Hn. induction n as [|n IH]; intros s w HI Hn.
  - simpl. destruct (cond s) eqn:E; [|unfold ret; eauto]. destruct (Hb w s HI E) as (w' & [s'|r] & H1 & H2); [lia|].
    rewrite (bind_run _ _ _ _ _ H1). unfold ret. eauto.
  - cbn [while]. destruct (cond s) eqn:E; [|unfold ret; eauto]. destruct (Hb w s HI E) as (w' & [s'|r] & H1 & H2).
    + destruct H2 as [HI' Hm]. rewrite (bind_run _ _ _ _ _ H1). apply (IH s' w' HI'). lia.
    + rewrite (bind_run _ _ _ _ _ H1). unfold ret. eauto.
Qed.

(** Two runs in lockstep. *)
Lemma while_rel {W1 S1 R1 W2 S2 R2} (c1 : S1 -> bool) (b1 : S1 -> M W1 (S1 + R1)) (c2 : S2 -> bool) (b2 : S2 -> M W2 (S2 + R2))
  (RR : W1 * S1 -> W2 * S2 -> Prop) (Q : W1 * R1 -> W2 * R2 -> Prop) (QE : W1 -> W2 -> Prop) :
  (forall w1 s1 w2 s2, RR (w1, s1) (w2, s2) -> c1 s1 = c2 s2) ->
  (forall w1 s1 w2 s2, RR (w1, s1) (w2, s2) -> c1 s1 = true ->
     match b1 s1 w1, b2 s2 w2 with
     | (v1, Ok (inl x1)), (v2, Ok (inl x2)) => RR (v1, x1) (v2, x2)
     | (v1, Ok (inr x1)), (v2, Ok (inr x2)) => Q (v1, x1) (v2, x2)
     | (v1, Err e1), (v2, Err e2) => e1 = e2 /\ QE v1 v2
     | _, _ => False
     end) ->
  (forall w1 s1 w2 s2, RR (w1, s1) (w2, s2) -> QE w1 w2) ->
  forall fuel w1 s1 w2 s2, RR (w1, s1) (w2, s2) ->
  match while c1 b1 fuel s1 w1, while c2 b2 fuel s2 w2 with
  | (v1, Ok (inl x1)), (v2, Ok (inl x2)) => RR (v1, x1) (v2, x2)
  | (v1, Ok (inr x1)), (v2, Ok (inr x2)) => Q (v1, x1) (v2, x2)
  | (v1, Err e1), (v2, Err e2) => e1 = e2 /\ QE v1 v2
  | _, _ => False
  end.
Proof.
  intros Hc Hb HE. induction fuel as [|f IH]; intros w1 s1 w2 s2 HR; cbn [while];
    rewrite <- (Hc _ _ _ _ HR); destruct (c1 s1) eqn:E.
  - unfold fail. split; [reflexivity|]. eapply HE, HR.
  - unfold ret. exact HR.
  - specialize (Hb _ _ _ _ HR E). unfold bind.
    destruct (b1 s1 w1) as [v1 [[x1|x1]|e1]], (b2 s2 w2) as [v2 [[x2|x2]|e2]]; try contradiction.
    + apply IH, Hb.
    + unfold ret. exact Hb.
    + exact Hb.
  - unfold ret. exact HR.
Qed.

Ltac inv_run :=
  repeat match goal with
  | H : bind _ _ _ = (_, Ok _) |- _ =>
      apply bind_ok in H; let w := fresh "w" in let a := fresh "a" in let H1 := fresh "H" in let H2 := fresh "H" in
      destruct H as (w & a & H1 & H2); cbv beta in H2
  | H : lift _ _ = (_, Ok _) |- _ => apply lift_ok in H; destruct H as [? H]
  | H : ret _ _ = (_, Ok _) |- _ => apply ret_ok in H; destruct H as [? H]
  | H : assert_ _ _ _ = (_, Ok _) |- _ => apply assert_ok in H; destruct H as [? H]
  | H : rbind _ _ = Ok _ |- _ =>
      apply rbind_ok in H; let a := fresh "a" in let H1 := fresh "H" in let H2 := fresh "H" in
      destruct H as (a & H1 & H2); cbv beta in H2
  end.
