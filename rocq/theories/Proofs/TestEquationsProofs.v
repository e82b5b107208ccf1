(** The shipped test equations: derivatives, exact solutions, conservation laws. *)
From Coq Require Import Reals Lra Lia.
From Coquelicot Require Import Coquelicot.
From Verif Require Import Model.Base Model.Scalar Model.LinAlg Model.TestEquations Spec.Sums Spec.JacobianSpec Spec.TestEquationsSpec Proofs.SumsProofs.
Local Open Scope R_scope.

(** open a vector of known dimension *)
Ltac openv y H := let a := fresh "a" in
  match type of H with
  | length _ = O => apply length_zero_iff_nil in H; subst y
  | length _ = S _ => let z := fresh "z" in destruct y as [|a z]; [discriminate H|]; simpl in H; apply eq_add_S in H; openv z H
  end.
Ltac cases i Hi := repeat (destruct i as [|i]; [clear Hi|apply (proj2 (Nat.succ_lt_mono _ _)) in Hi]); [..|exfalso; exact (Nat.nlt_0_r _ Hi)].
Ltac der := apply is_derive_Reals; unfold along, ventry, mentry; cbn -[IZR Rlit];
  unfold Rlit, Z.pow_pos; simpl Pos.iter; auto_derive; [try tauto|try (field; auto); try lra].


(** every list of partial derivatives, by computation *)
Ltac jacobian f := exists f; split;
  [ let t := fresh "t" in let y := fresh "y" in let s := fresh "s" in let H := fresh "H" in
    intros t y s H; openv y H; split; reflexivity
  | let t := fresh "t" in let y := fresh "y" in let s := fresh "s" in let H := fresh "H" in
    intros t y s H _; openv y H; eexists; split; [reflexivity|]; split; [reflexivity|]; split; [reflexivity|];
    let i := fresh "i" in let j := fresh "j" in let Hi := fresh "Hi" in let Hj := fresh "Hj" in
    intros i j Hi Hj; cases i Hi; cases j Hj; der ].

Section Jacobians.
  Context {LA : LinAlg R} {St : Type}.
  Local Notation J n F := (@jac_is_derivative St n (fun _ => True) F).

  Lemma exponential_jac : forall l, J 1 (exponential l).
  Proof. intro l. jacobian (fun (_ : R) y => map (fun a => l * a) y). Qed.
  Lemma harmonic_jac : forall w, J 2 (harmonic w).
  Proof. intro w. jacobian (fun (_ : R) y => [w * ventry y 1; - w * ventry y 0]). Qed.
  Lemma vdpol_jac : forall mu, mu <> 0 -> J 2 (vdpol mu).
  Proof. intros mu Hm. jacobian (fun (_ : R) y => [ventry y 1; ((1 - ventry y 0 * ventry y 0) * ventry y 1 - ventry y 0) / mu]). Qed.
  Lemma bruss_jac : forall a b, J 2 (bruss a b).
  Proof.
    intros a b. jacobian (fun (_ : R) y => [a + ventry y 0 * ventry y 0 * ventry y 1 - b * ventry y 0 - ventry y 0;
      b * ventry y 0 - ventry y 0 * ventry y 0 * ventry y 1]).
  Qed.
  Lemma rober_jac : J 3 rober.
  Proof.
    jacobian (fun (_ : R) y => [Rlit (-4) (-2) * ventry y 0 + Rlit 1 4 * ventry y 1 * ventry y 2;
      Rlit 4 (-2) * ventry y 0 - Rlit 1 4 * ventry y 1 * ventry y 2 - Rlit 3 7 * ventry y 1 * ventry y 1;
      Rlit 3 7 * ventry y 1 * ventry y 1]).
  Qed.
  Lemma dimer_jac : forall rate, rate <> 0 -> J 2 (dimer rate).
  Proof.
    intros rate Hr. jacobian (fun (_ : R) y => [-2 * rate * ventry y 0 * ventry y 0 + 2 * (Rlit 10 (-1) / rate) * ventry y 1;
      rate * ventry y 0 * ventry y 0 - Rlit 10 (-1) / rate * ventry y 1]).
  Qed.
  Lemma kinetic_jac : forall b2 b3 b4, J 4 (kinetic_4 b2 b3 b4).
  Proof.
    intros b2 b3 b4. jacobian (fun (_ : R) y => let y0 := ventry y 0 in let y1 := ventry y 1 in let y2 := ventry y 2 in let y3 := ventry y 3 in
      [-2 * y0 * y0 - y0 * (y1 + y2) + (2 * b2 * y1 + b3 * y2 + b4 * y3); y0 * y0 - y0 * y1 + b3 * y2 - b2 * y1;
       y0 * y1 - y0 * y2 + b4 * y3 - b3 * y2; y0 * y2 - b4 * y3]).
  Qed.
  Lemma lorenz_jac : forall s r b, J 3 (lorenz s r b).
  Proof.
    intros sg r b. jacobian (fun (_ : R) y => [sg * (ventry y 1 - ventry y 0); ventry y 0 * (r - ventry y 2) - ventry y 1;
      ventry y 0 * ventry y 1 - b * ventry y 2]).
  Qed.

  Lemma stiff_value : ExactProducts LA -> forall t a b s,
    f_fun (@stiff_eq R _ LA St) t [a; b] s = (s, Ok [b; -1000 * a - 1001 * b]).
  Proof.
    intros HP t a b s. cbn [stiff_eq f_fun]. unfold lift, mv. cbn [ncols mcols stiff_A of_rows mtab length nrows map seq nth Nat.eqb vtab].
    assert (E : forall i, (i < 2)%nat -> la_mv stiff_A [a; b] i = Rsum 2 (fun j => mentry stiff_A i j * ventry [a; b] j)).
    { intros i Hi. rewrite exact_mv by (exact Hi || reflexivity). reflexivity. }
    unfold stiff_A in * . cbn [of_rows mtab length map seq nth] in E |- * .
    pose proof (E 0%nat ltac:(lia)) as E0. pose proof (E 1%nat ltac:(lia)) as E1. clear E.
    unfold of_rows, mtab in * . cbn [length map seq nth] in * . unfold vtab. cbn [map seq].
    rewrite E0, E1. do 3 f_equal; [|f_equal]; unfold mentry, ventry; simpl; unfold Rlit, Z.pow_pos; simpl; lra.
  Qed.
  Lemma stiff_jac : ExactProducts LA -> J 2 stiff_eq.
  Proof.
    intro HP. exists (fun _ y => [ventry y 1; -1000 * ventry y 0 - 1001 * ventry y 1]). split.
    - intros t y s H. openv y H. split; [apply (stiff_value HP)|reflexivity].
    - intros t y s H _. openv y H. eexists. split; [reflexivity|]. split; [reflexivity|]. split; [reflexivity|].
      intros i j Hi Hj. cases i Hi; cases j Hj; der.
  Qed.

  (** exact solutions *)
  Ltac solution := let t := fresh "t" in let s := fresh "s" in intros t s; split; [reflexivity|];
    eexists; split; [reflexivity|]; let i := fresh "i" in let Hi := fresh "Hi" in intros i Hi; cases i Hi; der.
  Lemma exponential_solves : forall l, @solves St 1 (exponential l) (exponential_sol l).
  Proof. intro l. solution. Qed.
  Lemma harmonic_solves : forall w, @solves St 2 (harmonic w) (harmonic_sol w).
  Proof. intro w. solution. Qed.
  Lemma stiff_solves : ExactProducts LA -> @solves St 2 stiff_eq stiff_sol.
  Proof.
    intros HP t s. split; [reflexivity|]. eexists. split; [apply (stiff_value HP)|].
    intros i Hi. cases i Hi; der.
  Qed.

  Lemma exponential_start : forall l, exponential_sol l 0 = [1].
  Proof. intro l. unfold exponential_sol. rewrite Rmult_0_r, exp_0. reflexivity. Qed.
  Lemma harmonic_start : forall w, harmonic_sol w 0 = [0; 1].
  Proof. intro w. unfold harmonic_sol. rewrite Rmult_0_r, sin_0, cos_0. reflexivity. Qed.
  Lemma stiff_start : stiff_sol 0 = [1; 0].
  Proof. unfold stiff_sol. rewrite Rmult_0_r, Ropp_0, exp_0. f_equal; [|f_equal]; field. Qed.

  (** linear conservation laws *)
  Ltac linear := let t := fresh "t" in let y := fresh "y" in let s := fresh "s" in let H := fresh "H" in let E := fresh "E" in
    intros t y s ? v H E; openv y H; injection E as _ <-; unfold ventry; simpl; unfold Rlit, Z.pow_pos; simpl; try field; auto.
  Lemma rober_conserves : @conserves St 3 rober (fun _ => 1).
  Proof. linear. Qed.
  Lemma dimer_conserves : forall rate, rate <> 0 -> @conserves St 2 (dimer rate) (fun q => INR (q + 1)).
  Proof. intros rate Hr. linear. Qed.
  Lemma kinetic_conserves : forall b2 b3 b4, @conserves St 4 (kinetic_4 b2 b3 b4) (fun q => INR (q + 1)).
  Proof. intros b2 b3 b4. linear. Qed.
  (** the squared norm along harmonic *)
  Lemma harmonic_energy : forall w t y s v, length y = 2%nat -> f_fun (@harmonic R _ St w) t y s = (s, Ok v) ->
    Rsum 2 (fun q => ventry y q * ventry v q) = 0.
  Proof. intros w t y s v H E. openv y H. injection E as <-. unfold ventry. simpl. ring. Qed.
End Jacobians.
