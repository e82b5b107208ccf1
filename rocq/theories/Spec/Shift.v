(** Translating the time axis. *)
From Coq Require Import Reals.
From Verif Require Import Model.Base Model.LinAlg.
Local Open Scope R_scope.

(** the right-hand side (t,y) |-> f(t+s,y) *)
Definition shift_functor {St} (s : R) (F : functor R St) : functor R St :=
  Functor (fun t y => f_fun F (t + s) y) (fun t y => f_jac F (t + s) y).
(** the lines of an output file with all times shifted by s *)
Definition shift_lines (s : R) (l : list (R * list R)) : list (R * list R) := map (fun p => (fst p + s, snd p)) l.
