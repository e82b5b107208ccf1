(** An instance of the linear-algebra kernels over R that solves every invertible system exactly (by choice): it shows
    that the exactness classes can be met. *)
From Coq Require Import Reals Lra ClassicalEpsilon.
From Verif Require Import Model.Base Model.Scalar Model.LinAlg Spec.Sums Spec.NewtonSpec Proofs.SumsProofs Proofs.RVec.
Local Open Scope R_scope.

Definition some_solution (A : mat R) (b : list R) : option (nat -> R) :=
  if excluded_middle_informative (invertible A /\ length b = nrows A)
  then Some (ventry (epsilon (inhabits []) (fun x => is_solution A x b)))
  else None.
Definition some_inverse (A : mat R) : option (nat -> nat -> R) :=
  if excluded_middle_informative (invertible A)
  then Some (mentry (epsilon (inhabits mat_empty) (fun B => is_inverse A B)))
  else None.
Definition choice_LA : LinAlg R := {|
  la_mv A x i := Rsum (ncols A) (fun j => mentry A i j * ventry x j);
  la_mm A B i j := Rsum (ncols A) (fun k => mentry A i k * mentry B k j);
  la_dot x y := Rsum (length x) (fun i => ventry x i * ventry y i);
  la_norminf x := fold_right (fun a m => Rmax (Rabs a) m) 0 x;
  la_solve := some_solution;
  la_trisolve u := some_solution;
  la_inv := some_inverse;
  la_lu A := Some (delta, mentry A, delta)
|}.
#[export] Instance choice_products : ExactProducts choice_LA.
Proof. split; intros; reflexivity. Qed.
Lemma some_solution_spec A b : invertible A -> length b = nrows A -> exists x, some_solution A b = Some x /\ is_solution A (vtab (ncols A) x) b.
Proof.
  intros HA Hb. unfold some_solution. destruct (excluded_middle_informative _) as [_|H]; [|tauto].
  eexists. split; [reflexivity|].
  assert (Hs : is_solution A (epsilon (inhabits []) (fun x => is_solution A x b)) b) by (apply epsilon_spec, solution_exists; assumption).
  set (x := epsilon _ _) in * . destruct Hs as (H1 & H2 & H3). rewrite <- H1.
  replace (vtab (length x) (ventry x)) with x; [split; [exact H1|split; assumption]|].
  apply (list_vtab 0).
Qed.
#[export] Instance choice_solve : ExactSolve choice_LA.
Proof. split. exact some_solution_spec. Qed.
#[export] Instance choice_norm : ExactNorm choice_LA.
Proof.
  split. intros x. simpl. split.
  - induction x as [|a x IH]; intros b [].
    + subst. simpl. apply Rmax_l.
    + simpl. eapply Rle_trans; [apply IH; assumption|apply Rmax_r].
  - induction x as [|a x IH]; [left; auto|right].
    simpl. destruct (Rle_lt_dec (fold_right (fun a m => Rmax (Rabs a) m) 0 x) (Rabs a)) as [H|H].
    + exists a. split; [left; reflexivity|]. apply Rmax_left. exact H.
    + rewrite Rmax_right by lra. destruct IH as [[-> E]|(b & Hb & E)].
      * simpl in H. pose proof (Rabs_pos a). lra.
      * exists b. split; [right; exact Hb|exact E].
Qed.
