(** Property theorems about dense output (C103, C104). *)
From Coq Require Import Reals Lra.
From Coquelicot Require Import Coquelicot.
From Verif Require Import Model.Base Model.Scalar Model.LinAlg Model.Enums Model.Coeffs Model.Collocation Model.ErkCoeffs Model.IrkCoeffs.
From Verif Require Import Spec.Sums Spec.Methods Proofs.TablesGeneric Proofs.DenseExact.
Local Open Scope R_scope.

(** C103.  Dense output exists for five implicit methods: there project_b returns one weight per stage, for every theta; for every other
    method the assertion fails or, without assertions, the product with the empty matrix throws.  (Any arithmetic.) *)
Theorem C103_implicit_dense_output :
  forall (T : Type) (HS : Scalar T) (HE : Env T) (LA : LinAlg T) m sc theta,
  irk_get_coefficients (T := T) m = Ok sc -> In m implicit_methods ->
  if in_dec Z.eq_dec m [RADAU_IIA_32; RADAU_IIA_53; RADAU_IIA_95; RADAU_IIA_137; LOBATTO_IIIC_85]
  then exists w, project_b theta (length (sc_b sc)) (sc_b_interp sc) = Ok w /\ length w = length (sc_b sc)
  else project_b theta (length (sc_b sc)) (sc_b_interp sc) = Err (if ndebug then EThrow ELogic else EAbort).
Proof. exact (fun T HS HE LA => @implicit_dense_output T HS HE LA). Qed.
Print Assumptions C103_implicit_dense_output.
(** Finding: no explicit method has it. *)
Theorem C103_no_explicit_dense_output :
  forall (T : Type) (HS : Scalar T) (HE : Env T) (LA : LinAlg T) m sc theta,
  erk_get_coefficients (T := T) m = Ok sc -> In m explicit_methods ->
  erk_project_b theta (length (sc_b sc)) (sc_b_interp sc) = Err (if ndebug then EThrow ELogic else EAbort).
Proof. exact (fun T HS HE LA => @explicit_dense_output T HS HE LA). Qed.
Print Assumptions C103_no_explicit_dense_output.
Example C103_example : forall (T : Type) (HS : Scalar T) (HE : Env T),
  (exists sc, irk_get_coefficients (T := T) LOBATTO_IIIC_85 = Ok sc) /\ (exists sc, irk_get_coefficients (T := T) GAUSS_LEGENDRE_147 = Ok sc) /\
  (exists sc, erk_get_coefficients (T := T) DORMAND_PRINCE_54 = Ok sc) /\
  In LOBATTO_IIIC_85 implicit_methods /\ In GAUSS_LEGENDRE_147 implicit_methods /\ In DORMAND_PRINCE_54 explicit_methods.
Proof.
  intros T HS HE. destruct (irk_get_ok (T := T) LOBATTO_IIIC_85) as (a & Ha & _). destruct (irk_get_ok (T := T) GAUSS_LEGENDRE_147) as (b & Hb & _).
  destruct (erk_get_ok (T := T) DORMAND_PRINCE_54) as (c & Hc & _). split; [exists a; exact Ha|]. split; [exists b; exact Hb|]. split; [exists c; exact Hc|]. simpl. tauto.
Qed.

(** C104.  The weights at theta integrate from 0 to theta, exactly, every polynomial with at most as many coefficients as there are stages. *)
Theorem C104_dense_weights_exact :
  forall (E : Env R) (LA : LinAlg R) (X : ExactProducts LA) m sc theta,
  In m [RADAU_IIA_32; RADAU_IIA_53; RADAU_IIA_95; RADAU_IIA_137; LOBATTO_IIIC_85] -> irk_get_coefficients (T := R) m = Ok sc ->
  exists w, project_b theta (length (sc_b sc)) (sc_b_interp sc) = Ok w /\ length w = length (sc_b sc) /\
  forall a, (length a <= length (sc_b sc))%nat -> let p x := Rsum (length a) (fun k => ventry a k * x ^ k) in
    is_RInt p 0 theta (Rsum (length (sc_b sc)) (fun j => ventry w j * p (ventry (sc_c sc) j))).
Proof. exact (fun E LA X => @dense_polynomials E LA X). Qed.
Print Assumptions C104_dense_weights_exact.
(** At theta = 1 the weights of the decimal tables are those of the method up to 1e-15 (C14 has the other methods, exactly). *)
Theorem C104_dense_ends_at_the_step :
  forall (E : Env R) (LA : LinAlg R) (X : ExactProducts LA) m sc,
  In m [RADAU_IIA_95; RADAU_IIA_137] -> irk_get_coefficients (T := R) m = Ok sc ->
  exists w, project_b 1 (length (sc_b sc)) (sc_b_interp sc) = Ok w /\ length w = length (sc_b sc) /\
  forall j, (j < length (sc_b sc))%nat -> Rabs (ventry w j - ventry (sc_b sc) j) <= 1 / 1000000000000000.
Proof. exact (fun E LA X => @decimal_ends E LA X). Qed.
Print Assumptions C104_dense_ends_at_the_step.
(** RADAU_IIA_137 has seven stages, so polynomials of degree six are integrated exactly. *)
Example C104_example : forall (E : Env R), exists sc, irk_get_coefficients (T := R) RADAU_IIA_137 = Ok sc /\ length (sc_b sc) = 7%nat.
Proof. intros E. exact (seven_stages E). Qed.
