(** Property theorems about runs with a method that has no coefficients (C06). *)
From Verif Require Import Model.Base Model.Scalar Model.LinAlg Model.Enums Model.Options Model.Coeffs.
From Verif Require Import Model.ErkCoeffs Model.IrkCoeffs Model.Newton Model.Erk Model.Irk.
From Verif Require Import Spec.Methods Proofs.Unsupported.

(** C06.  [odeint] with any id that is not implemented stops at its assertion, having called nothing and written nothing (the
    world [w] is what it was).  In a build with NDEBUG it reads the order that was never assigned, again before calling or
    writing anything. *)
Theorem C06_explicit_odeint_rejects :
  forall (T : Type) (HS : Scalar T) (LA : LinAlg T) (HE : Env T) (St : Type) fuel (F : functor T St) t0 t1 y0 opts oo m dt w,
  ~ In m explicit_methods ->
  (ndebug = false -> erk_odeint fuel F t0 t1 y0 opts oo m dt w = (w, Err EAbort)) /\
  (ndebug = true -> erk_odeint fuel F t0 t1 y0 opts oo m dt w = (w, Err EUB)).
Proof. exact (fun T HS LA HE St => @erk_unsupported T HS LA HE St). Qed.
Print Assumptions C06_explicit_odeint_rejects.

Theorem C06_implicit_odeint_rejects :
  forall (T : Type) (HS : Scalar T) (LA : LinAlg T) (HE : Env T) (St : Type) fuel (F : functor T St) t0 t1 y0 opts oo m dt w,
  ~ In m implicit_methods ->
  (ndebug = false -> irk_odeint fuel F t0 t1 y0 opts oo m dt w = (w, Err EAbort)) /\
  (ndebug = true -> irk_odeint fuel F t0 t1 y0 opts oo m dt w = (w, Err EUB)).
Proof. exact (fun T HS LA HE St => @irk_unsupported T HS LA HE St). Qed.
Print Assumptions C06_implicit_odeint_rejects.

Example C06_odeint_example :
  ~ In 7%Z explicit_methods /\ ~ In RADAU_IIA_53 explicit_methods /\
  ~ In LOBATTO_IIIA_85 implicit_methods /\ In LOBATTO_IIIA_85 (map snd irk_methods) /\ ~ In DORMAND_PRINCE_54 implicit_methods.
Proof. repeat split; vm_compute; intuition discriminate. Qed.
