(** For statements about what a run can depend on. *)
From Verif Require Import Model.Base Model.LinAlg Spec.Observe.

(** F and G do the same, in every state, when called as in c. *)
Definition agree_at {T St} (F G : functor T St) (c : call T) : Prop :=
  match c with
  | CallFun t y => forall s, f_fun F t y s = f_fun G t y s
  | CallJac t y => forall s, f_jac F t y s = f_jac G t y s
  end.
(** The world without the list of calls. *)
Definition unlogged {T St} (w : world T (St * list (call T))) : world T St := World (fst (w_st w)) (w_out w).
