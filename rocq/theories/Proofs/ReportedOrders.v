(** The orders the implicit tables report (C09), in any arithmetic. *)
From Verif Require Import Model.Base Model.Scalar Model.LinAlg Model.Enums Model.Collocation Model.Coeffs Model.IrkCoeffs Spec.Reported.

Section Reported.
  Context {T : Type} {S : Scalar T} {E : Env T}.
  Definition reports (o o2 : option Z) (x : res (solver_coeffs T)) : Prop := match x with Ok sc => sc_order sc = o /\ sc_order2 sc = o2 | Err _ => True end.
  Lemma reports_bind {A} (x : res A) k o o2 : (forall a, reports o o2 (k a)) -> reports o o2 (rbind x k).
  Proof. intros H. destruct x as [a|e]; [apply H|exact I]. Qed.
  Lemma irk_reported m o o2 sc : In (m, o, o2) implicit_reported -> irk_get_coefficients m = Ok sc -> sc_order sc = o /\ sc_order2 sc = o2.
  Proof.
    intros Hi Hg. assert (H : reports o o2 (irk_table m)).
    { unfold implicit_reported in Hi. cbn [In] in Hi.
      destruct Hi as [Hi|[Hi|[Hi|[Hi|[Hi|[Hi|[Hi|[Hi|[Hi|[Hi|[Hi|[Hi|[]]]]]]]]]]]]]; injection Hi as <- <- <-.
      - exact (conj eq_refl eq_refl).
      - exact (conj eq_refl eq_refl).
      - exact (conj eq_refl eq_refl).
      - exact (conj eq_refl eq_refl).
      - change (reports (Some 8%Z) (Some 5%Z) irk_lobatto_iiic_85). unfold irk_lobatto_iiic_85. apply reports_bind. intros a. exact (conj eq_refl eq_refl).
      - exact (conj eq_refl eq_refl).
      - change (reports (Some 3%Z) (Some 2%Z) irk_radau_iia_32). unfold irk_radau_iia_32. apply reports_bind. intros a. exact (conj eq_refl eq_refl).
      - change (reports (Some 5%Z) (Some 3%Z) irk_radau_iia_53). unfold irk_radau_iia_53. apply reports_bind. intros a. exact (conj eq_refl eq_refl).
      - change (reports (Some 9%Z) (Some 5%Z) irk_radau_iia_95). unfold irk_radau_iia_95. apply reports_bind. intros a. exact (conj eq_refl eq_refl).
      - change (reports (Some 13%Z) (Some 7%Z) irk_radau_iia_137). unfold irk_radau_iia_137. apply reports_bind. intros a. exact (conj eq_refl eq_refl).
      - exact (conj eq_refl eq_refl).
      - exact (conj eq_refl eq_refl). }
    unfold irk_get_coefficients in Hg. destruct (irk_table m) as [r|e]; [|discriminate]. cbn [rbind] in Hg. destruct (coeff_warnings r) as [u|e]; [|discriminate]. cbn [rbind] in Hg. injection Hg as <-. exact H.
  Qed.
End Reported.
