(** Property theorems about the coefficient tables (C06-C11, C14). *)
From Coq Require Import String QArith Reals Lra.
From Verif Require Import Model.Base Model.Scalar Model.LinAlg Model.Enums Model.Coeffs Model.Collocation Model.ErkCoeffs Model.IrkCoeffs.
From Verif Require Import Spec.Sums Spec.Trees Spec.Methods Spec.Reported Proofs.ExactInstance Proofs.TablesGeneric Proofs.TablesFinal Proofs.ReportedOrders.
Local Open Scope R_scope.

(** C06.  For every int id the explicit lookup returns a table, which passes the check exactly for the six implemented
    ids.  (For any scalar type in which 0 == 0: doubles and reals.) *)
Theorem C06_explicit_methods_accepted :
  forall (T : Type) (HS : Scalar T), (slit 0 0 ==?. slit 0 0)%sc = true ->
  forall m : Z, exists sc, erk_get_coefficients (T := T) m = Ok sc /\
  (erk_verify_solver_coeffs sc = true <-> In m explicit_methods).
Proof. exact (fun T HS => @erk_accepts T HS). Qed.
Print Assumptions C06_explicit_methods_accepted.

Theorem C06_implicit_methods_accepted :
  forall (T : Type) (HS : Scalar T) (HE : Env T), forall m : Z, exists sc, irk_get_coefficients (T := T) m = Ok sc /\
  (irk_verify_solver_coeffs sc = true <-> In m implicit_methods).
Proof. exact (fun T HS HE => @irk_accepts T HS HE). Qed.
Print Assumptions C06_implicit_methods_accepted.

(** The four advertised methods without coefficients. *)
Theorem C06_advertised_but_rejected :
  forall (T : Type) (HS : Scalar T) (HE : Env T) m, In m [LOBATTO_IIIA_85; LOBATTO_IIIC_127; GAUSS_LEGENDRE_63; GAUSS_LEGENDRE_105] ->
  In m (map snd irk_methods) /\ exists sc, irk_get_coefficients (T := T) m = Ok sc /\ irk_verify_solver_coeffs sc = false.
Proof. exact (fun T HS HE => @irk_advertised_rejected T HS HE). Qed.
Print Assumptions C06_advertised_but_rejected.

Example C06_example :
  (forall pw, @seqb f64 (F64Scalar pw) (@slit f64 (F64Scalar pw) 0 0) (@slit f64 (F64Scalar pw) 0 0) = true) /\ In CASH_KARP_54 explicit_methods /\ ~ In 7%Z explicit_methods /\
  ~ In LOBATTO_IIIA_85 implicit_methods.
Proof. repeat split; vm_compute; intuition discriminate. Qed.

(** C07.  Explicit tableaux have exactly the advertised orders. *)
Theorem C07_explicit_orders_exact :
  forall m p p2, In (m, p, p2) explicit_orders -> exists sc,
  erk_get_coefficients (T := R) m = Ok sc /\ sc_order sc = Some (Z.of_nat p) /\
  exact_order (length (sc_b sc)) (mfun (sc_A sc)) (vfun (sc_b sc)) p /\
  match p2 with
  | None => sc_b2 sc = [] /\ sc_order2 sc = Some 0%Z
  | Some q => sc_order2 sc = Some (Z.of_nat q) /\
              exact_order (length (sc_b2 sc)) (mfun (sc_A sc)) (vfun (sc_b2 sc)) q
  end.
Proof. exact erk_orders_final. Qed.
Print Assumptions C07_explicit_orders_exact.

(** [explicit_orders] lists every implemented explicit method; the trees are what one expects: the condition of the
    tree with two vertices says sum_i b_i sum_j a_ij = 1/2. *)
Example C07_example :
  map (fun x => fst (fst x)) explicit_orders = explicit_methods /\
  (forall s a b, order_condition s a b (Node [Node []]) <->
     Rsum s (fun i => b i * (Rsum s (fun j => a i j * 1) * 1)) = 1 / 2).
Proof.
  split; [reflexivity|]. intros s a b. unfold order_condition, weight. cbn [stage_weight fold_right density vertices].
  replace (INR (2 * (1 * 1 * 1))) with 2 by (simpl; lra). reflexivity.
Qed.

(** C08.  Closed-form implicit tableaux have exactly the advertised orders. *)
Theorem C08_implicit_orders_exact :
  forall (E : Env R) m p, In (m, p) implicit_orders -> exists sc,
  irk_get_coefficients (T := R) m = Ok sc /\ sc_order sc = Some (Z.of_nat p) /\
  exact_order (length (sc_b sc)) (mfun (sc_A sc)) (vfun (sc_b sc)) p.
Proof. exact (fun E => @irk_orders_final E). Qed.
Print Assumptions C08_implicit_orders_exact.

Example C08_example : forall m, In m (map fst implicit_orders) <-> In m implicit_closed_form.
Proof. simpl. intuition. Qed.

(** C09.  Decimal tables: B(p) and C(s) to 1e-16, and B(p+1) fails by more than 1e-9. *)
Theorem C09_decimal_tables_accurate :
  forall (E : Env R) m s p, In (m, s, p) decimal_orders -> exists sc, irk_get_coefficients (T := R) m = Ok sc /\
  length (sc_b sc) = s /\
  B_within (1 / 10000000000000000) s (vfun (sc_b sc)) (vfun (sc_c sc)) p /\
  C_within (1 / 10000000000000000) s (mfun (sc_A sc)) (vfun (sc_c sc)) s /\
  ~ B_within (1 / 1000000000) s (vfun (sc_b sc)) (vfun (sc_c sc)) (S p).
Proof. exact (fun E => @irk_decimal_final E). Qed.
Print Assumptions C09_decimal_tables_accurate.

Example C09_example : map (fun x => fst (fst x)) decimal_orders = implicit_decimal.
Proof. reflexivity. Qed.

(** The orders every implicit method reports, on which the step size controller depends (C72); GAUSS_LEGENDRE_147 and LOBATTO_IIIA_127
    report none: their two orders are never assigned. *)
Theorem C09_reported_orders :
  forall (T : Type) (HS : Scalar T) (HE : Env T) m order order2 sc, In (m, order, order2) implicit_reported ->
  irk_get_coefficients (T := T) m = Ok sc -> sc_order sc = order /\ sc_order2 sc = order2.
Proof. exact (fun T HS HE => @irk_reported T HS HE). Qed.
Print Assumptions C09_reported_orders.
Example C09_reported_example : map (fun x => fst (fst x)) implicit_reported = [IMPLICIT_EULER; LOBATTO_IIIA_43; LOBATTO_IIIC_43; LOBATTO_IIIC_64; LOBATTO_IIIC_85;
    GAUSS_LEGENDRE_42; RADAU_IIA_32; RADAU_IIA_53; RADAU_IIA_95; RADAU_IIA_137; GAUSS_LEGENDRE_147; LOBATTO_IIIA_127] /\
  forall (T : Type) (HS : Scalar T) (HE : Env T) m, exists sc, irk_get_coefficients (T := T) m = Ok sc.
Proof.
  split; [reflexivity|]. intros T HS HE m. destruct (C06_implicit_methods_accepted T HS HE m) as (sc & H & _). exists sc. exact H.
Qed.

(** C10.  Orders of the comparison formulas (gamma, b2) of the implicit methods: attained by LOBATTO_IIIA_43 and
    RADAU_IIA_53; not attained by LOBATTO_IIIC_43 (1 instead of 2), LOBATTO_IIIC_64 (1 instead of 4), GAUSS_LEGENDRE_42
    (1 instead of 2), RADAU_IIA_32 and LOBATTO_IIIC_85 (not even consistent). *)
Theorem C10_embedded_orders :
  forall (E : Env R) m advertised actual, In (m, advertised, actual) embedded_orders -> exists sc,
  irk_get_coefficients (T := R) m = Ok sc /\ sc_order2 sc = Some (Z.of_nat advertised) /\
  exact_order (S (length (sc_b sc))) (ext_a (length (sc_b sc)) (mfun (sc_A sc)))
              (ext_b (length (sc_b sc)) (vfun (sc_b2 sc)) (sc_gamma sc)) actual.
Proof. exact (fun E => @irk_embedded E). Qed.
Print Assumptions C10_embedded_orders.

Theorem C10_decimal_embedded_consistent :
  forall (E : Env R) m, In m implicit_decimal -> exists sc, irk_get_coefficients (T := R) m = Ok sc /\
  Rabs (sc_gamma sc + Rsum (length (sc_b2 sc)) (fun i => ventry (sc_b2 sc) i) - 1) <= / 10000000000000000.
Proof. exact (fun E => @irk_embedded_decimal E). Qed.
Print Assumptions C10_decimal_embedded_consistent.

Theorem C10_embedded_sums :
  forall (E : Env R),
  (exists sc, irk_get_coefficients (T := R) RADAU_IIA_53 = Ok sc /\
     sc_gamma sc + Rsum (length (sc_b2 sc)) (fun i => ventry (sc_b2 sc) i) = 1) /\
  (exists sc, irk_get_coefficients (T := R) RADAU_IIA_32 = Ok sc /\
     sc_gamma sc + Rsum (length (sc_b2 sc)) (fun i => ventry (sc_b2 sc) i) = 4 / 3) /\
  (exists sc, irk_get_coefficients (T := R) LOBATTO_IIIC_85 = Ok sc /\
     1189 / 1000 < sc_gamma sc + Rsum (length (sc_b2 sc)) (fun i => ventry (sc_b2 sc) i) < 119 / 100).
Proof. exact (fun E => @irk_embedded_sums E). Qed.
Print Assumptions C10_embedded_sums.

Example C10_example : length embedded_orders = 7%nat /\ In (GAUSS_LEGENDRE_42, 2, 1)%nat embedded_orders.
Proof. simpl. tauto. Qed.

(** C11.  Row sums; no warning is printed; explicit tables are strictly lower triangular. *)
Theorem C11_explicit_rows :
  forall m sc, In m explicit_methods -> erk_get_coefficients (T := R) m = Ok sc ->
  coeff_warnings sc = Ok [] /\
  forall i, (i < length (sc_b sc))%nat ->
    Rsum (length (sc_b sc)) (fun j => mentry (sc_A sc) i j) = ventry (sc_c sc) i /\
    forall j, (i <= j < length (sc_b sc))%nat -> mentry (sc_A sc) i j = 0.
Proof. exact erk_rows. Qed.
Print Assumptions C11_explicit_rows.

Theorem C11_implicit_rows :
  forall (E : Env R) m sc, In m implicit_methods -> irk_get_coefficients (T := R) m = Ok sc ->
  coeff_warnings sc = Ok [] /\
  (forall i, (i < length (sc_b sc))%nat ->
    Rabs (Rsum (length (sc_b sc)) (fun j => mentry (sc_A sc) i j) - ventry (sc_c sc) i) <= 1 / 10000000000000000) /\
  (In m implicit_closed_form -> forall i, (i < length (sc_b sc))%nat ->
    Rsum (length (sc_b sc)) (fun j => mentry (sc_A sc) i j) = ventry (sc_c sc) i).
Proof. exact (fun E => @irk_rows E). Qed.
Print Assumptions C11_implicit_rows.

(** First-same-as-last: flagged tables have last row of A = b and first row 0. *)
Theorem C11_explicit_fsal :
  forall m sc, In m explicit_methods -> erk_get_coefficients (T := R) m = Ok sc ->
  (sc_FSAL sc = true <-> In m explicit_fsal) /\
  (sc_FSAL sc = true -> forall j, (j < length (sc_b sc))%nat ->
     mentry (sc_A sc) (length (sc_b sc) - 1) j = ventry (sc_b sc) j /\ mentry (sc_A sc) 0 j = 0).
Proof. exact erk_fsal_final. Qed.
Print Assumptions C11_explicit_fsal.

Theorem C11_implicit_fsal :
  forall (E : Env R) m sc, In m implicit_methods -> irk_get_coefficients (T := R) m = Ok sc ->
  (sc_FSAL sc = true <-> m = LOBATTO_IIIA_43) /\
  (sc_FSAL sc = true -> forall j, (j < length (sc_b sc))%nat ->
     mentry (sc_A sc) (length (sc_b sc) - 1) j = ventry (sc_b sc) j /\ mentry (sc_A sc) 0 j = 0).
Proof. exact (fun E => @irk_fsal_final E). Qed.
Print Assumptions C11_implicit_fsal.

Example C11_example :
  exists sc, erk_get_coefficients (T := R) RUNGE_KUTTA_4 = Ok sc /\ length (sc_b sc) = 4%nat /\ In RUNGE_KUTTA_4 explicit_methods.
Proof.
  destruct (erk_get_ok (T := R) RUNGE_KUTTA_4) as (sc & Hg & Ht & _). exists sc. split; [exact Hg|].
  injection Ht as <-. split; [reflexivity|simpl; auto].
Qed.

(** C14.  Dense output agrees with the tableau. *)
Theorem C14_dense_output_matches_tableau :
  forall (E : Env R) (LA : LinAlg R) (X : ExactProducts LA) m sc,
  In m implicit_closed_form -> irk_get_coefficients (T := R) m = Ok sc -> nrows (sc_b_interp sc) <> 0%nat ->
  project_b 1 (length (sc_b sc)) (sc_b_interp sc) = Ok (sc_b sc) /\
  project_b 0 (length (sc_b sc)) (sc_b_interp sc) = Ok (repeat 0 (length (sc_b sc))) /\
  (In m radau_closed_form -> forall i, (i < length (sc_b sc))%nat ->
     project_b (ventry (sc_c sc) i) (length (sc_b sc)) (sc_b_interp sc) =
     Ok (vtab (length (sc_b sc)) (fun j => mentry (sc_A sc) i j))).
Proof. exact (fun E LA X => @irk_dense_final E LA X). Qed.
Print Assumptions C14_dense_output_matches_tableau.

Example C14_example :
  forall (E : Env R) m, In m [RADAU_IIA_32; RADAU_IIA_53; LOBATTO_IIIC_85] -> In m implicit_closed_form /\
  exists sc, irk_get_coefficients (T := R) m = Ok sc /\ nrows (sc_b_interp sc) = length (sc_b sc) /\ (0 < length (sc_b sc))%nat.
Proof. intros E m Hm. split; [simpl in *; tauto|]. exact (irk_dense_have m Hm). Qed.
