(** Observing the calls a solver makes to the user's functor. *)
From Verif Require Import Model.Base Model.LinAlg.

Inductive call (T : Type) := CallFun (t : T) (y : list T) | CallJac (t : T) (y : list T).
Arguments CallFun {T} t y.
Arguments CallJac {T} t y.

(** The functor [F], additionally writing down every call, in order.  It returns what [F] returns and throws when [F]
    throws. *)
Definition logged {T St} (F : functor T St) : functor T (St * list (call T)) :=
  Functor
    (fun t y s => let (s1, r) := f_fun F t y (fst s) in ((s1, snd s ++ [CallFun t y]), r))
    (fun t y s => let (s1, r) := f_jac F t y (fst s) in ((s1, snd s ++ [CallJac t y]), r)).

Definition is_fun {T} (c : call T) : bool := match c with CallFun _ _ => true | CallJac _ _ => false end.
Definition count_fun {T} (l : list (call T)) : nat := length (filter is_fun l).
Definition count_jac {T} (l : list (call T)) : nat := length (filter (fun c => negb (is_fun c)) l).

(** A functor whose [fun] (when it returns) is a function of its arguments only. *)
Definition computes {T St} (F : functor T St) (f : T -> list T -> list T) : Prop :=
  forall t y s v, snd (f_fun F t y s) = Ok v -> v = f t y.
(** ... and always returns. *)
Definition total_fun {T St} (F : functor T St) (f : T -> list T -> list T) : Prop :=
  forall t y s, snd (f_fun F t y s) = Ok (f t y).
(** [jac] likewise *)
Definition computes_jac {T St} (F : functor T St) (J : T -> list T -> mat T) : Prop :=
  forall t y s v, snd (f_jac F t y s) = Ok v -> v = J t y.
Definition total_jac {T St} (F : functor T St) (J : T -> list T -> mat T) : Prop :=
  forall t y s, snd (f_jac F t y s) = Ok (J t y).

(** A functor from pure functions. *)
Definition pure_functor {T} (f : T -> list T -> list T) (J : T -> list T -> mat T) : functor T unit :=
  Functor (fun t y s => (s, Ok (f t y))) (fun t y s => (s, Ok (J t y))).

(** A right-hand side that always returns, and returns vectors of dimension [n] for vectors of dimension [n]. *)
Definition returns_dim {T St} (F : functor T St) (n : nat) : Prop :=
  forall t y s, length y = n -> exists s' v, f_fun F t y s = (s', Ok v) /\ length v = n.
(** The values of a right-hand side keep the dimension [n]. *)
Definition preserves_dim {T} (f : T -> list T -> list T) (n : nat) : Prop := forall t y, length y = n -> length (f t y) = n.

(** What the functor answers (or throws) does not depend on its hidden state. *)
Definition state_independent {T St} (F : functor T St) : Prop :=
  forall t y s1 s2, snd (f_fun F t y s1) = snd (f_fun F t y s2) /\ snd (f_jac F t y s1) = snd (f_jac F t y s2).
