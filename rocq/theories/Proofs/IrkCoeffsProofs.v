From Coq Require Import QArith Qreals Qabs Reals Lra.
From Verif Require Import Model.Base Model.Scalar Model.LinAlg Model.Enums Model.Coeffs Model.Collocation Model.IrkCoeffs.
From Verif Require Import Spec.Sums Spec.Trees Proofs.SumsProofs Proofs.QuadField Proofs.OrderProofs Proofs.MatchTac.
From Verif Require Import Proofs.CoeffsProofs Proofs.CollocationGeneric.
Local Open Scope R_scope.

(** The tableaux evaluated in Q(sqrt d). *)
Definition q_env : Env qs := {| ndebug := false; junk := qs0; clock := qs0 |}.
Definition strip (d : Z) (r : res (solver_coeffs qs)) : solver_coeffs qs :=
  match r with Ok sc => sc | Err _ => @unsupported_coeffs qs (QScalar d) end.
Definition irk_q (d m : Z) : solver_coeffs qs := strip d (@irk_table qs (QScalar d) q_env m).

(** The same for a table that computes dense-output weights, which are left out (they are slow to compute). *)
Ltac without_interp d t :=
  let u := eval cbv beta iota zeta delta
             [irk_lobatto_iiic_85 irk_radau_iia_32 irk_radau_iia_53 irk_radau_iia_95 irk_radau_iia_137] in t in
  lazymatch u with
  | rbind _ ?k => let r := eval vm_compute in (strip d (k mat_empty)) in exact r
  end.

Definition q_ie := Eval vm_compute in irk_q 2 IMPLICIT_EULER.
Definition q_l43 := Eval vm_compute in irk_q 2 LOBATTO_IIIA_43.
Definition q_c43 := Eval vm_compute in irk_q 2 LOBATTO_IIIC_43.
Definition q_c64 := Eval vm_compute in irk_q 5 LOBATTO_IIIC_64.
Definition q_g42 := Eval vm_compute in irk_q 3 GAUSS_LEGENDRE_42.
Definition q_g147 := Eval vm_compute in irk_q 2 GAUSS_LEGENDRE_147.
Definition q_l127 := Eval vm_compute in irk_q 2 LOBATTO_IIIA_127.
Definition q_c85 : solver_coeffs qs := ltac:(without_interp 21%Z (@irk_lobatto_iiic_85 qs (QScalar 21) q_env)).
Definition q_r32 : solver_coeffs qs := ltac:(without_interp 2%Z (@irk_radau_iia_32 qs (QScalar 2) q_env)).
Definition q_r53 : solver_coeffs qs := ltac:(without_interp 6%Z (@irk_radau_iia_53 qs (QScalar 6) q_env)).
Definition q_r95 : solver_coeffs qs := ltac:(without_interp 2%Z (@irk_radau_iia_95 qs (QScalar 2) q_env)).
Definition q_r137 : solver_coeffs qs := ltac:(without_interp 2%Z (@irk_radau_iia_137 qs (QScalar 2) q_env)).

Section Match.
  Context {E : Env R}.
  Lemma match_ie : exists r, irk_table (T := R) IMPLICIT_EULER = Ok r /\ sc_match 2 q_ie r.
  Proof. eexists; split; [reflexivity|]. unfold q_ie. qmatch. Qed.
  Lemma match_l43 : exists r, irk_table (T := R) LOBATTO_IIIA_43 = Ok r /\ sc_match 2 q_l43 r.
  Proof. eexists; split; [reflexivity|]. unfold q_l43. qmatch. Qed.
  Lemma match_c43 : exists r, irk_table (T := R) LOBATTO_IIIC_43 = Ok r /\ sc_match 2 q_c43 r.
  Proof. eexists; split; [reflexivity|]. unfold q_c43. qmatch. Qed.
  Lemma match_c64 : exists r, irk_table (T := R) LOBATTO_IIIC_64 = Ok r /\ sc_match 5 q_c64 r.
  Proof. eexists; split; [reflexivity|]. unfold q_c64. qmatch. Qed.
  Lemma match_g42 : exists r, irk_table (T := R) GAUSS_LEGENDRE_42 = Ok r /\ sc_match 3 q_g42 r.
  Proof. eexists; split; [reflexivity|]. unfold q_g42, sqrt3. qmatch. Qed.
  Ltac coll := match goal with |- context [collocation_interpolate_coeffs ?c] =>
      let f := fresh "f" in destruct (collocation_ok c) as [f ->] end.
  Lemma match_c85 : exists r, irk_table (T := R) LOBATTO_IIIC_85 = Ok r /\ sc_match 21 q_c85 r.
  Proof.
    change (irk_table (T := R) LOBATTO_IIIC_85) with (irk_lobatto_iiic_85 (T := R)). unfold irk_lobatto_iiic_85. cbv zeta. coll.
    eexists; split; [reflexivity|]. unfold q_c85, sqrt21. qmatch.
  Qed.
  Lemma match_r32 : exists r, irk_table (T := R) RADAU_IIA_32 = Ok r /\ sc_match 2 q_r32 r.
  Proof.
    change (irk_table (T := R) RADAU_IIA_32) with (irk_radau_iia_32 (T := R)). unfold irk_radau_iia_32. cbv zeta. coll.
    eexists; split; [reflexivity|]. unfold q_r32. qmatch.
  Qed.
  Lemma match_r53 : exists r, irk_table (T := R) RADAU_IIA_53 = Ok r /\ sc_match 6 q_r53 r.
  Proof.
    change (irk_table (T := R) RADAU_IIA_53) with (irk_radau_iia_53 (T := R)). unfold irk_radau_iia_53. cbv zeta. coll.
    eexists; split; [reflexivity|]. unfold q_r53, sqrt6. qmatch.
  Qed.
  Lemma match_r95 : exists r, irk_table (T := R) RADAU_IIA_95 = Ok r /\ sc_match 2 q_r95 r.
  Proof.
    change (irk_table (T := R) RADAU_IIA_95) with (irk_radau_iia_95 (T := R)). unfold irk_radau_iia_95. cbv zeta. coll.
    eexists; split; [reflexivity|]. unfold q_r95, vat. qmatch.
  Qed.
  Lemma match_r137 : exists r, irk_table (T := R) RADAU_IIA_137 = Ok r /\ sc_match 2 q_r137 r.
  Proof.
    change (irk_table (T := R) RADAU_IIA_137) with (irk_radau_iia_137 (T := R)). unfold irk_radau_iia_137. cbv zeta. coll.
    eexists; split; [reflexivity|]. unfold q_r137, vat. qmatch.
  Qed.
  Lemma match_g147 : exists r, irk_table (T := R) GAUSS_LEGENDRE_147 = Ok r /\ sc_match 2 q_g147 r.
  Proof. eexists; split; [reflexivity|]. unfold q_g147, vat. qmatch. Qed.
  Lemma match_l127 : exists r, irk_table (T := R) LOBATTO_IIIA_127 = Ok r /\ sc_match 2 q_l127 r.
  Proof. eexists; split; [reflexivity|]. unfold q_l127, vat. qmatch. Qed.
End Match.
