(** Proving that a real tableau is the image of its Q(sqrt d) counterpart. *)
From Coq Require Import QArith Qreals Reals Lra.
From Verif Require Import Model.Base Model.Scalar Model.LinAlg Model.Coeffs.
From Verif Require Import Spec.Sums Proofs.QuadField Proofs.OrderProofs.
Local Open Scope R_scope.

(** [e] is the image of the element [y]: built by following the structure of the expression [e]. *)
Section Reify.
  Variable d : Z.
  Hypothesis Hd : (0 <=? d)%Z = true.
  Let Hd' : (0 <= d)%Z.
  Proof. apply Z.leb_le, Hd. Qed.
  Lemma im_lit m e : Rlit m e = toR d (qs_lit m e).
  Proof. symmetry. apply toR_lit. Qed.
  Lemma im_add a b x y : a = toR d x -> b = toR d y -> a + b = toR d (qs_add x y).
  Proof. intros -> ->. symmetry. apply toR_add. Qed.
  Lemma im_sub a b x y : a = toR d x -> b = toR d y -> a - b = toR d (qs_sub x y).
  Proof. intros -> ->. symmetry. apply toR_sub. Qed.
  Lemma im_opp a x : a = toR d x -> - a = toR d (qs_opp x).
  Proof. intros ->. symmetry. apply toR_opp. Qed.
  Lemma im_mul a b x y : a = toR d x -> b = toR d y -> a * b = toR d (qs_mul d x y).
  Proof. intros -> ->. symmetry. apply toR_mul, Hd'. Qed.
  Lemma im_div a b x y : a = toR d x -> b = toR d y -> Qeq_bool (qs_norm d y) 0 = false -> a / b = toR d (qs_div d x y).
  Proof. intros -> -> Hn. symmetry. apply toR_div; [exact Hd'|]. apply Qeq_bool_neq, Hn. Qed.
  Lemma im_sqrt z : z = d -> sqrt (Rlit z 0) = toR d (QS 0 1).
  Proof. intros ->. unfold toR, Rlit, Q2R; simpl. lra. Qed.
  Lemma im_conclude e x y : e = toR d y -> qs_eqb y x = true -> e = toR d x.
  Proof. intros -> H. apply toR_eqb, H. Qed.
End Reify.

Ltac im :=
  lazymatch goal with
  | |- sqrt _ = _ => apply im_sqrt; reflexivity
  | |- _ + _ = _ => eapply im_add; [im|im]
  | |- _ - _ = _ => eapply im_sub; [im|im]
  | |- - _ = _ => eapply im_opp; im
  | |- _ * _ = _ => eapply im_mul; [reflexivity|im|im]
  | |- _ / _ = _ => eapply im_div; [reflexivity|im|im|vm_compute; reflexivity]
  | |- Rlit _ _ = _ => apply im_lit
  end.
Ltac num_eq := eapply im_conclude; [im|vm_compute; reflexivity].
Ltac list_eq := repeat (apply f_equal2; [|]); try reflexivity; try num_eq.
Ltac sc_red :=
  unfold of_rows, mtab, sZ;
  cbn [sc_b sc_c sc_A sc_b2 sc_order sc_order2 sc_FSAL sc_gamma sc_b_interp nrows mcols map seq length nth Nat.add
       slit sadd ssub smul sdiv sopp ssqrt RScalar].
Ltac qmatch := constructor; sc_red; list_eq.
