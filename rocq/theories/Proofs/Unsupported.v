(** Runs with a method id that has no coefficients. *)
From Verif Require Import Model.Base Model.Scalar Model.LinAlg Model.Enums Model.Options Model.Coeffs Model.Collocation.
From Verif Require Import Model.ErkCoeffs Model.IrkCoeffs Model.Newton Model.Erk Model.Irk.
From Verif Require Import Spec.Methods Proofs.TablesGeneric.

Section Unsupported.
  Context {T : Type} {HS : Scalar T} {LA : LinAlg T} {HE : Env T} {St : Type}.

  Lemma irk_table_unsupported m : ~ In m implicit_methods -> irk_table (T := T) m = Ok unsupported_coeffs.
  Proof.
    unfold implicit_methods, irk_table. simpl. intros Hm.
    repeat match goal with |- context [(m =? ?k)%Z] => destruct (Z.eqb_spec m k); [subst; tauto|] end. reflexivity.
  Qed.

  Lemma erk_unsupported fuel (F : functor T St) t0 t1 y0 opts oo m dt w : ~ In m explicit_methods ->
    (ndebug = false -> erk_odeint fuel F t0 t1 y0 opts oo m dt w = (w, Err EAbort)) /\
    (ndebug = true -> erk_odeint fuel F t0 t1 y0 opts oo m dt w = (w, Err EUB)).
  Proof.
    intros Hm. destruct (erk_get_ok (T := T) m) as (sc & Hg & Ht & _). rewrite (erk_table_unsupported m Hm) in Ht.
    injection Ht as <-. unfold erk_odeint. split; intros Hn; rewrite Hg; cbv [bind lift]; rewrite Hn;
      cbn [assert_ sc_b2 unsupported_coeffs length Nat.eqb]; [reflexivity|].
    unfold erk_guts. rewrite Hn. reflexivity.
  Qed.

  Lemma irk_unsupported fuel (F : functor T St) t0 t1 y0 opts oo m dt w : ~ In m implicit_methods ->
    (ndebug = false -> irk_odeint fuel F t0 t1 y0 opts oo m dt w = (w, Err EAbort)) /\
    (ndebug = true -> irk_odeint fuel F t0 t1 y0 opts oo m dt w = (w, Err EUB)).
  Proof.
    intros Hm. destruct (irk_get_ok (T := T) m) as (sc & Hg & Ht & _). rewrite (irk_table_unsupported m Hm) in Ht.
    injection Ht as <-. unfold irk_odeint. split; intros Hn; rewrite Hg; cbv [bind lift]; rewrite Hn;
      cbn [assert_ sc_b2 unsupported_coeffs length Nat.eqb]; [reflexivity|].
    unfold irk_guts. rewrite Hn. cbv [bind lift assert_ ret].
    destruct (io_newton _); reflexivity.
  Qed.
End Unsupported.
