(** Complex numbers over R, exact complex linear algebra, and what a stability function is. *)
From Coq Require Import Reals.
From Verif Require Import Model.Base Model.LinAlg Model.Scalar Model.StabRegion Spec.Sums Spec.RkSpec Spec.StabilitySpec.
Local Open Scope R_scope.

Definition cadd (z w : cx R) : cx R := (re z + re w, im z + im w).
Definition cmul (z w : cx R) : cx R := (re z * re w - im z * im w, re z * im w + im z * re w).
Definition cabs (z : cx R) : R := sqrt (re z * re z + im z * im z).
Definition csum (n : nat) (f : nat -> cx R) : cx R := (Rsum n (fun i => re (f i)), Rsum n (fun i => im (f i))).
Definition centry (M : mat (cx R)) (i j : nat) : cx R := nth i (nth j (mcols M) []) (0, 0).

(** the square matrix M of size n has no kernel (is invertible) *)
Definition cx_regular (n : nat) (M : mat (cx R)) : Prop :=
  forall x : nat -> cx R, (forall i, (i < n)%nat -> csum n (fun j => cmul (centry M i j) (x j)) = (0, 0)) ->
  forall j, (j < n)%nat -> x j = (0, 0).
(** Complex arithmetic is exact; inv(M)*e is the solution x of M x = e, and is returned exactly when M is invertible. *)
Class ExactCx (CA : CxAlg R) : Prop := {
  exact_cadd : forall z w, cx_add z w = cadd z w;
  exact_cmul : forall z w, cx_mul z w = cmul z w;
  exact_cabs : forall z, cx_abs z = cabs z;
  exact_cdot : forall b x, length b = length x -> cx_dot b x = csum (length b) (fun i => cmul (ventry b i, 0) (nth i x (0, 0)));
  exact_cinv : forall M e x, ncols M = nrows M -> length e = nrows M -> cx_inv_times M e = Some x ->
    cx_regular (nrows M) M /\ forall i, (i < nrows M)%nat -> csum (nrows M) (fun j => cmul (centry M i j) (x j)) = (ventry e i, 0);
  exact_cinv_total : forall M e, ncols M = nrows M -> length e = nrows M -> cx_regular (nrows M) M -> cx_inv_times M e <> None
}.

(** The matrix of multiplication by the complex number l, acting on (real part, imaginary part): y' = l y as a real system. *)
Definition times_matrix (l : cx R) (p q : nat) : R :=
  match p, q with
  | 0%nat, 1%nat => - im l
  | 1%nat, 0%nat => im l
  | _, _ => re l
  end.
(** a state of dimension two as a complex number *)
Definition as_cx (y : list R) : cx R := (ventry y 0, ventry y 1).

(** |u'| = g |u| for every step from u to u' of the method (a,b) with h l = z applied to y' = l y, and there is such a step from
    every state: g is the modulus of the stability function at z. *)
Definition grows_by (s : nat) (a : nat -> nat -> R) (b : nat -> R) (z : cx R) (g : R) : Prop :=
  forall c t h l, cmul (h, 0) l = z ->
  (forall u, length u = 2%nat -> exists u' k, rk_step 2 s a b c (linear_rhs 2 (times_matrix l)) t h u u' k) /\
  (forall u u' k, rk_step 2 s a b c (linear_rhs 2 (times_matrix l)) t h u u' k -> cabs (as_cx u') = g * cabs (as_cx u)).

(** The grid of the region files: 400 real parts from -190 to 10 and 80 imaginary parts from -20 to 20, equally spaced. *)
Definition region_x : list R := map (fun i => -190 + INR i * (200 / 399)) (seq 0 400).
Definition region_y : list R := map (fun i => -20 + INR i * (40 / 79)) (seq 0 80).
(** The lines of a region file whose third column is given by val: one block of 400 lines for every imaginary part. *)
Definition region_lines (val : R -> R -> R) : list (line R) :=
  flat_map (fun y => map (fun x => Nums [x; y; val x y]) region_x ++ [Blank]) region_y.
