(** Which ids are accepted, in every arithmetic. *)
From Coq Require Import Reals.
From Verif Require Import Model.Base Model.Scalar Model.LinAlg Model.Enums Model.Coeffs Model.Collocation.
From Verif Require Import Model.ErkCoeffs Model.IrkCoeffs.
From Verif Require Import Spec.Sums Spec.Methods Proofs.OrderProofs Proofs.CoeffsProofs Proofs.CollocationGeneric.

Section Generic.
  Context {T : Type} `{Scalar T}.

  (** number of stages by id; 0: not implemented *)
  Definition erk_stages (m : Z) : nat :=
    if (m =? EXPLICIT_EULER)%Z then 1
    else if (m =? RUNGE_KUTTA_4)%Z then 4
    else if (m =? BOGACKI_SHAMPINE_32)%Z then 4
    else if (m =? CASH_KARP_54)%Z then 6
    else if (m =? DORMAND_PRINCE_54)%Z then 7
    else if (m =? FEHLBERG_54)%Z then 6
    else 0.

  Lemma erk_table_dims m : exists sc, erk_table (T := T) m = Ok sc /\ dims_ok sc (erk_stages m) = true.
  Proof.
    unfold erk_table, erk_stages.
    repeat match goal with |- context [(m =? ?k)%Z] => destruct (m =? k)%Z; [eexists; split; reflexivity|] end.
    eexists; split; reflexivity.
  Qed.
  Lemma erk_stages_pos m : (0 < erk_stages m)%nat <-> In m explicit_methods.
  Proof.
    unfold erk_stages, explicit_methods. split.
    - repeat match goal with |- context [(m =? ?k)%Z] => destruct (Z.eqb_spec m k); [subst; simpl; tauto|] end. lia.
    - simpl. intros [<-|[<-|[<-|[<-|[<-|[<-|[]]]]]]]; simpl; lia.
  Qed.

  Hypothesis zero_eq : (slit 0 0 ==?. slit 0 0)%sc = true.

  Lemma erk_table_verify m sc : In m explicit_methods -> erk_table (T := T) m = Ok sc -> erk_verify_solver_coeffs sc = true.
  Proof.
    simpl. intros [<-|[<-|[<-|[<-|[<-|[<-|[]]]]]]] [= <-]; unfold erk_verify_solver_coeffs, sZ;
      cbn -[slit sdiv sopp seqb]; rewrite ?zero_eq; reflexivity.
  Qed.

  Lemma erk_get_ok m : exists sc, erk_get_coefficients (T := T) m = Ok sc /\ erk_table m = Ok sc /\ dims_ok sc (erk_stages m) = true.
  Proof.
    destruct (erk_table_dims m) as (sc & Ht & Hd). exists sc. unfold erk_get_coefficients. rewrite Ht. cbn [rbind].
    destruct (coeff_warnings_ok sc _ Hd) as [ws ->]. auto.
  Qed.
  Lemma erk_table_unsupported m : ~ In m explicit_methods -> erk_table (T := T) m = Ok unsupported_coeffs.
  Proof.
    unfold explicit_methods, erk_table. simpl. intros Hm.
    repeat match goal with |- context [(m =? ?k)%Z] => destruct (Z.eqb_spec m k); [subst; tauto|] end. reflexivity.
  Qed.

  Lemma erk_accepts m : exists sc, erk_get_coefficients (T := T) m = Ok sc /\
    (erk_verify_solver_coeffs sc = true <-> In m explicit_methods).
  Proof.
    destruct (erk_get_ok m) as (sc & Hg & Ht & Hd). exists sc. split; [exact Hg|]. split.
    - intros Hv. destruct (in_dec Z.eq_dec m explicit_methods) as [Hi|Hi]; [exact Hi|].
      rewrite (erk_table_unsupported m Hi) in Ht. injection Ht as <-. discriminate.
    - intros Hi. eapply erk_table_verify; eassumption.
  Qed.
End Generic.

Section GenericIrk.
  Context {T : Type} `{Scalar T} `{Env T}.

  Definition irk_stages (m : Z) : nat :=
    if (m =? IMPLICIT_EULER)%Z then 1
    else if (m =? LOBATTO_IIIA_43)%Z then 3
    else if (m =? LOBATTO_IIIC_43)%Z then 3
    else if (m =? LOBATTO_IIIC_64)%Z then 4
    else if (m =? LOBATTO_IIIC_85)%Z then 5
    else if (m =? GAUSS_LEGENDRE_42)%Z then 3
    else if (m =? RADAU_IIA_32)%Z then 2
    else if (m =? RADAU_IIA_53)%Z then 3
    else if (m =? RADAU_IIA_95)%Z then 5
    else if (m =? RADAU_IIA_137)%Z then 7
    else if (m =? GAUSS_LEGENDRE_147)%Z then 7
    else if (m =? LOBATTO_IIIA_127)%Z then 7
    else 0.

  Lemma irk_stages_pos m : (0 < irk_stages m)%nat <-> In m implicit_methods.
  Proof.
    unfold irk_stages, implicit_methods. split.
    - repeat match goal with |- context [(m =? ?k)%Z] => destruct (Z.eqb_spec m k); [subst; simpl; tauto|] end. lia.
    - simpl. intros Hm. repeat (destruct Hm as [<-|Hm]; [simpl; lia|]). contradiction.
  Qed.

  Lemma irk_table_dims m : exists sc, irk_table (T := T) m = Ok sc /\ dims_ok sc (irk_stages m) = true.
  Proof.
    unfold irk_table, irk_stages, irk_implicit_euler, irk_lobatto_iiia_43, irk_lobatto_iiic_43, irk_lobatto_iiic_64,
      irk_lobatto_iiic_85, irk_gauss_legendre_42, irk_radau_iia_32, irk_radau_iia_53, irk_radau_iia_95, irk_radau_iia_137,
      irk_gauss_legendre_147, irk_lobatto_iiia_127. cbv zeta.
    repeat match goal with |- context [(m =? ?k)%Z] => destruct (m =? k)%Z;
      [first [match goal with |- context [collocation_interpolate_coeffs ?c] => destruct (collocation_ok c) as [f ->] end|idtac];
       eexists; split; reflexivity|] end.
    eexists; split; reflexivity.
  Qed.
  Lemma irk_get_ok m : exists sc, irk_get_coefficients (T := T) m = Ok sc /\ irk_table m = Ok sc /\ dims_ok sc (irk_stages m) = true.
  Proof.
    destruct (irk_table_dims m) as (sc & Ht & Hd). exists sc. unfold irk_get_coefficients. rewrite Ht. cbn [rbind].
    destruct (coeff_warnings_ok sc _ Hd) as [ws ->]. auto.
  Qed.
  Lemma irk_verify_dims (sc : solver_coeffs T) s : dims_ok sc s = true -> irk_verify_solver_coeffs sc = negb (s =? 0)%nat.
  Proof.
    unfold dims_ok. rewrite !andb_true_iff, !Nat.eqb_eq. intros [[[[H1 H2] H3] H4] H5].
    unfold irk_verify_solver_coeffs, ncols. rewrite H1, H2, H3, H4, Nat.eqb_refl. cbn [andb negb].
    destruct (s =? 0)%nat; reflexivity.
  Qed.
  Lemma irk_accepts m : exists sc, irk_get_coefficients (T := T) m = Ok sc /\
    (irk_verify_solver_coeffs sc = true <-> In m implicit_methods).
  Proof.
    destruct (irk_get_ok m) as (sc & Hg & Ht & Hd). exists sc. split; [exact Hg|].
    rewrite (irk_verify_dims sc _ Hd), <- irk_stages_pos, negb_true_iff, Nat.eqb_neq. lia.
  Qed.
End GenericIrk.
