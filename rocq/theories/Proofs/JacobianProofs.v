(** newton.hpp:186-252: approx_jacobi_matrix and verify_jacobi_matrix. *)
From Coq Require Import Reals Lra.
From Coquelicot Require Import Coquelicot.
From Verif Require Import Model.Base Model.Scalar Model.LinAlg Model.Newton Spec.Sums Spec.NewtonSpec Spec.JacobianSpec
  Proofs.LoopProofs Proofs.SumsProofs Proofs.RVec Proofs.NewtonProofs.

Section Generic.
  Local Open Scope sc_scope.
  Local Open Scope mon_scope.
  Context {T : Type} {HS : Scalar T} {HL : LinAlg T} {HE : Env T} {St : Type} (F : nfunctor T St) (f : list T -> list T).

  Lemma list_set_twice {A} (l : list A) j a b : list_set (list_set l j a) j b = list_set l j b.
  Proof. revert j. induction l as [|x l IH]; intros [|j]; simpl; auto. rewrite IH. reflexivity. Qed.
  Lemma list_set_same {A} (l : list A) j d : list_set l j (nth j l d) = l.
  Proof. revert j. induction l as [|x l IH]; intros [|j]; simpl; auto. rewrite IH. reflexivity. Qed.
  Lemma vget_nth (x : list T) i d : (i < length x)%nat -> vget x i = Ok (nth i x d).
  Proof. intros Hi. unfold vget. rewrite (nth_error_nth' x d Hi). reflexivity. Qed.

  (** the loop over the rows fills one column *)
  Lemma fill_column N (Ja : nat -> nat -> T) j delta : (j < N)%nat -> (N <= length delta)%nat ->
    foldR (fun i Ja => rbind (vget delta i) (fun di => Ok (mset Ja i j di))) (seq 0 N) (mtab N N Ja) =
    Ok (mtab N N (fun i k => if (k =? j)%nat then nth i delta (sZ 0) else Ja i k)).
  Proof.
    intros Hj Hd.
    pose (I := fun (m : nat) (A : mat T) => A = mtab N N (fun i k => if (k =? j)%nat && (i <? m)%nat then nth i delta (sZ 0) else Ja i k)).
    destruct (foldR_seq_total (fun i Ja => rbind (vget delta i) (fun di => Ok (mset Ja i j di))) I 0 N (mtab N N Ja)) as (A & E & HI).
    - intros i A Hi ->. rewrite (vget_nth delta i (sZ 0)) by lia. simpl. eexists. split; [reflexivity|].
      rewrite mset_mtab by lia. apply mtab_ext. intros i' k Hi' Hk.
      destruct (i' =? i)%nat eqn:E1, (k =? j)%nat eqn:E2; simpl; try reflexivity.
      + apply Nat.eqb_eq in E1. subst i'. replace (i <? S i)%nat with true by (symmetry; apply Nat.ltb_lt; lia). reflexivity.
      + apply Nat.eqb_neq in E1. destruct (i' <? i)%nat eqn:E3, (i' <? S i)%nat eqn:E4; try reflexivity;
          [apply Nat.ltb_lt in E3; apply Nat.ltb_ge in E4; lia|apply Nat.ltb_ge in E3; apply Nat.ltb_lt in E4; lia].
    - unfold I. apply mtab_ext. intros. simpl. rewrite andb_false_r. reflexivity.
    - rewrite E, HI. f_equal. apply mtab_ext. intros i k Hi Hk. apply Nat.ltb_lt in Hi. simpl. rewrite Hi, andb_true_r. reflexivity.
  Qed.

  Hypothesis Hf : forall x s, snd (n_fun F x s) = Ok (f x).
  Lemma fun_total x s : exists s', n_fun F x s = (s', Ok (f x)).
  Proof. pose proof (Hf x s) as H. destruct (n_fun F x s) as [s' r]. simpl in H. subst r. eauto. Qed.
  Lemma nl_total x s l : exists s', n_fun (nlogged F) x (s, l) = ((s', l ++ [NFun x (f x)]), Ok (f x)).
  Proof. destruct (fun_total x s) as [s' E]. exists s'. simpl. rewrite E. reflexivity. Qed.

  Lemma column_run y h j (Ja : nat -> nat -> T) s l : (j < length y)%nat ->
    (forall x, length x = length y -> length (f x) = length y) ->
    exists s', approx_column (nlogged F) y h j (mtab (length y) (length y) Ja, y, y) (s, l) =
      ((s', l ++ [NFun (plus_h y h j) (f (plus_h y h j)); NFun (minus_h y h j) (f (minus_h y h j))]),
       Ok (mtab (length y) (length y) (fun i k => if (k =? j)%nat then
             (nth i (f (plus_h y h j)) (sZ 0) -. nth i (f (minus_h y h j)) (sZ 0)) /. (slit 2 0 *. h) else Ja i k), y, y)).
  Proof.
    intros Hj Hd. set (N := length y) in * . unfold approx_column. rewrite (vget_nth y j (sZ 0) Hj).
    rewrite !(bind_run _ _ _ _ _ (eq_refl : lift (Ok _) (s, l) = ((s, l), Ok _))).
    fold (plus_h y h j). fold (minus_h y h j).
    destruct (nl_total (plus_h y h j) s l) as [s1 E1]. rewrite (bind_run _ _ _ _ _ E1).
    destruct (nl_total (minus_h y h j) s1 (l ++ [NFun (plus_h y h j) (f (plus_h y h j))])) as [s2 E2]. rewrite (bind_run _ _ _ _ _ E2).
    rewrite <- app_assoc. simpl app.
    assert (Lp : length (f (plus_h y h j)) = N) by (apply Hd; unfold plus_h; apply vset_length).
    assert (Lm : length (f (minus_h y h j)) = N) by (apply Hd; unfold minus_h; apply vset_length).
    unfold vsub. rewrite Lp, Lm, Nat.eqb_refl.
    match goal with |- context [bind (lift (Ok ?d)) _ ?w] => rewrite (bind_run (lift (Ok d)) _ w w d eq_refl); set (dl := d) end.
    assert (Ldl : length dl = N) by (unfold dl, zipwith; rewrite map_length, combine_length, Lp, Lm; apply Nat.min_id).
    cbv zeta. fold N. rewrite fill_column by (unfold vdiv; rewrite ?map_length; lia).
    match goal with |- context [bind (lift (Ok ?d)) _ ?w] => rewrite (bind_run (lift (Ok d)) _ w w d eq_refl) end.
    exists s2. unfold ret. f_equal. f_equal. unfold plus_h, minus_h. rewrite !list_set_twice, !list_set_same. f_equal. f_equal.
    apply mtab_ext. intros i k Hi Hk. destruct (k =? j)%nat; [|reflexivity].
    fold (plus_h y h j). fold (minus_h y h j).
    unfold vdiv. rewrite (nth_indep _ (sZ 0) ((fun a => a /. (slit 2 0 *. h)) (sZ 0))) by (rewrite map_length; lia).
    rewrite (map_nth (fun a => a /. (slit 2 0 *. h))). f_equal.
    unfold dl, zipwith. rewrite (nth_indep _ (sZ 0) ((fun p => fst p -. snd p) (sZ 0, sZ 0))) by (rewrite map_length, combine_length; lia).
    rewrite (map_nth (fun p => fst p -. snd p)), combine_nth by lia. reflexivity.
  Qed.

  Lemma approx_run y h s l : (forall x, length x = length y -> length (f x) = length y) ->
    exists s', approx_jacobi_matrix (nlogged F) y h (s, l) =
      ((s', l ++ map (fun x => NFun x (f x)) (difference_points y h)), Ok (central_differences f y h)).
  Proof.
    intros Hd. unfold approx_jacobi_matrix. destruct (nl_total y s l) as [s1 E1]. rewrite (bind_run _ _ _ _ _ E1).
    set (N := length y) in * .
    pose (g := fun i j => (nth i (f (plus_h y h j)) (sZ 0) -. nth i (f (minus_h y h j)) (sZ 0)) /. (slit 2 0 *. h)).
    pose (I := fun (k : nat) (w : St * list (ncall T)) (st : mat T * list T * list T) =>
      st = (mtab N N (fun i j => if (j <? k)%nat then g i j else sZ 0), y, y) /\
      snd w = l ++ map (fun x => NFun x (f x)) (y :: flat_map (fun j => [plus_h y h j; minus_h y h j]) (seq 0 k))).
    destruct (foldM_seq_total (approx_column (nlogged F) y h) I 0 N (mzeros N N, y, y) (s1, l ++ [NFun y (f y)])) as (w' & st & E2 & HI).
    - intros j [s0 l0] st Hj [-> Hl]. simpl in Hl. subst l0.
      destruct (column_run y h j (fun i j0 => if (j0 <? j)%nat then g i j0 else sZ 0) s0
                 (l ++ map (fun x => NFun x (f x)) (y :: flat_map (fun j => [plus_h y h j; minus_h y h j]) (seq 0 j)))) as [s2 E2]; [exact (proj2 Hj)|exact Hd|].
      do 2 eexists. split; [exact E2|]. split.
      + fold N. f_equal. f_equal. apply mtab_ext. intros i k Hi Hk. fold (g i j). destruct (k =? j)%nat eqn:Ek.
        * apply Nat.eqb_eq in Ek. subst k. replace (j <? S j)%nat with true by (symmetry; apply Nat.ltb_lt; lia). reflexivity.
        * apply Nat.eqb_neq in Ek. destruct (k <? j)%nat eqn:E3, (k <? S j)%nat eqn:E4; try reflexivity;
            [apply Nat.ltb_lt in E3; apply Nat.ltb_ge in E4; lia|apply Nat.ltb_ge in E3; apply Nat.ltb_lt in E4; lia].
      + simpl snd. rewrite <- app_assoc. f_equal. rewrite seq_S, flat_map_app. simpl. f_equal. rewrite map_app. reflexivity.
    - split; [|reflexivity]. f_equal.
    - destruct HI as [-> Hl]. rewrite (bind_run _ _ _ _ _ E2). destruct w' as [s' l']. simpl in Hl. subst l'. exists s'.
      unfold ret. f_equal. unfold central_differences. fold N. f_equal. simpl fst. apply mtab_ext. intros i j Hi Hj.
      apply Nat.ltb_lt in Hj. simpl. rewrite Hj. reflexivity.
  Qed.
End Generic.

(** ** verify_jacobi_matrix *)
Section Verify.
  Local Open Scope sc_scope.
  Local Open Scope mon_scope.
  Context {T : Type} {HS : Scalar T} {HL : LinAlg T} {HE : Env T} {St : Type} (F : nfunctor T St).
  Hypothesis Hsqrt : (ssqrt (sZ 0) >?. slit 1 (-12)) = false.
  Lemma verify_true y s w b : verify_jacobi_matrix F y s = (w, Ok b) -> b = true.
  Proof.
    intros H. unfold verify_jacobi_matrix in H. apply bind_ok in H. destruct H as (w1 & Ja & _ & H).
    apply bind_ok in H. destruct H as (w2 & Jf & _ & H). apply bind_ok in H. destruct H as (w3 & m & Hm & H).
    apply lift_ok in Hm. destruct Hm as [-> Hm]. apply ret_ok in H. destruct H as [_ <-].
    assert (E : m = sZ 0).
    { match type of Hm with foldR ?b _ ?a = _ => refine (foldR_seq b (fun _ m0 => m0 = sZ 0) 0 (length y) a m _ eq_refl Hm) end.
      intros i a a' Hi Ha Hb. match type of Hb with foldR ?b _ ?a = _ => refine (foldR_seq b (fun _ m0 => m0 = sZ 0) 0 (length y) a a' _ Ha Hb) end.
      intros j a1 a2 Hj -> Hb2. apply rbind_ok in Hb2. destruct Hb2 as (? & _ & Hb2). apply rbind_ok in Hb2. destruct Hb2 as (? & _ & Hb2).
      injection Hb2 as <-. reflexivity. }
    rewrite E, Hsqrt. reflexivity.
  Qed.
  (** it does return when the dimensions match *)
  Lemma verify_returns y s : (forall x s, length x = length y -> exists s' v, n_fun F x s = (s', Ok v) /\ length v = length y) ->
    (forall s, exists s' A, n_jac F y s = (s', Ok A) /\ mat_wf A /\ nrows A = length y /\ ncols A = length y) ->
    exists s', verify_jacobi_matrix F y s = (s', Ok true).
  Proof.
    intros Hf HJ. unfold verify_jacobi_matrix.
    assert (Ha : exists s1 Ja, approx_jacobi_matrix F y (slit 1 (-4)) s = (s1, Ok Ja) /\ exists g, Ja = mtab (length y) (length y) g).
    { unfold approx_jacobi_matrix. destruct (Hf y s eq_refl) as (s0 & f0 & E0 & _). rewrite (bind_run _ _ _ _ _ E0).
      destruct (foldM_seq_total (approx_column F y (slit 1 (-4))) (fun _ _ st => exists g yp ym, st = (mtab (length y) (length y) g, yp, ym) /\ length yp = length y /\ length ym = length y)
                 0 (length y) (mzeros (length y) (length y), y, y) s0) as (w' & st & E & (g & yp & ym & -> & _)).
      - intros j w st Hj (g & yp & ym & -> & H1 & H2). unfold approx_column.
        rewrite (vget_nth y j (sZ 0)) by lia. rewrite (bind_run _ _ _ _ _ (eq_refl : lift (Ok _) w = (w, Ok _))).
        rewrite (vget_nth yp j (sZ 0)) by lia. rewrite (bind_run _ _ _ _ _ (eq_refl : lift (Ok _) w = (w, Ok _))).
        rewrite (vget_nth ym j (sZ 0)) by lia. rewrite (bind_run _ _ _ _ _ (eq_refl : lift (Ok _) w = (w, Ok _))).
        set (yp' := list_set yp j (nth j yp (sZ 0) +. slit 1 (-4))). set (ym' := list_set ym j (nth j ym (sZ 0) -. slit 1 (-4))).
        assert (Lyp : length yp' = length y) by (unfold yp'; rewrite vset_length; exact H1).
        assert (Lym : length ym' = length y) by (unfold ym'; rewrite vset_length; exact H2).
        destruct (Hf yp' w Lyp) as (w1 & fp & E1 & Lfp). rewrite (bind_run _ _ _ _ _ E1).
        destruct (Hf ym' w1 Lym) as (w2 & fm & E2 & Lfm). rewrite (bind_run _ _ _ _ _ E2).
        unfold vsub. rewrite Lfp, Lfm, Nat.eqb_refl. rewrite (bind_run _ _ _ _ _ (eq_refl : lift (Ok _) w2 = (w2, Ok _))). cbv zeta.
        rewrite fill_column; [|lia|unfold vdiv, zipwith; rewrite !map_length, combine_length; lia].
        rewrite (bind_run _ _ _ _ _ (eq_refl : lift (Ok _) w2 = (w2, Ok _))).
        do 2 eexists. split; [reflexivity|]. do 3 eexists. split; [reflexivity|]. rewrite !vset_length. auto.
      - do 3 eexists. split; [reflexivity|]. auto.
      - rewrite (bind_run _ _ _ _ _ E). do 2 eexists. split; [reflexivity|]. exists g. reflexivity. }
    destruct Ha as (s1 & Ja & E1 & g & ->). rewrite (bind_run _ _ _ _ _ E1).
    destruct (HJ s1) as (s2 & A & E2 & Hwf & Hr & Hc). rewrite (bind_run _ _ _ _ _ E2).
    match goal with |- context [lift (foldR ?b ?l ?a)] => destruct (foldR_seq_total b (fun _ _ => True) 0 (length y) a) as (m & E3 & _) end.
    - intros i a Hi _.
      match goal with |- context [foldR ?b ?l ?a] => destruct (foldR_seq_total b (fun _ _ => True) 0 (length y) a) as (m & E3 & _) end; [|exact I|eauto].
      intros j a' Hj _. rewrite mget_mtab by lia. cbn [rbind]. destruct (mget_ok A i j Hwf) as [z Ez]; [lia|lia|]. rewrite Ez. cbn [rbind]. eauto.
    - exact I.
    - rewrite E3. rewrite (bind_run _ _ _ _ _ (eq_refl : lift (Ok m) s2 = (s2, Ok m))). eexists.
      match goal with |- ret ?b s2 = _ => assert (Hb : b = true) end; [|unfold ret; rewrite Hb; reflexivity].
      assert (Hv : verify_jacobi_matrix F y s = (s2, Ok (if slit 1 (-12) <?. ssqrt m then false else true))).
      { unfold verify_jacobi_matrix. rewrite (bind_run _ _ _ _ _ E1), (bind_run _ _ _ _ _ E2), E3. reflexivity. }
      exact (verify_true y s s2 _ Hv).
  Qed.
End Verify.
