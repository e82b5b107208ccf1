(** A linear-algebra instance over R that satisfies the exactness classes: used only to show that theorems
    assuming exact kernels are not vacuous. *)
From Coq Require Import Reals Lra.
From Verif Require Import Model.Base Model.Scalar Model.LinAlg Spec.Sums Proofs.SumsProofs.
Local Open Scope R_scope.

#[export] Instance exact_LA : LinAlg R := {|
  la_mv A x i := Rsum (ncols A) (fun j => mentry A i j * ventry x j);
  la_mm A B i j := Rsum (ncols A) (fun k => mentry A i k * mentry B k j);
  la_dot x y := Rsum (length x) (fun i => ventry x i * ventry y i);
  la_norminf x := fold_right (fun a m => Rmax (Rabs a) m) 0 x;
  la_solve A b := None;
  la_trisolve u A b := None;
  la_inv A := None;
  la_lu A := None
|}.

#[export] Instance exact_LA_products : ExactProducts exact_LA.
Proof. split; intros; reflexivity. Qed.
