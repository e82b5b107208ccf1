(** Small specification functions. *)
From Coq Require Import Reals.
From Verif Require Import Model.Base Model.Timer.

(** Pascal's triangle *)
Fixpoint pascal (n k : nat) : Z :=
  match n, k with
  | _, O => 1%Z
  | O, S _ => 0%Z
  | S n', S k' => (pascal n' k' + pascal n' k)%Z
  end.

(** A clock reading in microseconds. *)
Definition micros (t : timeval) : Z := (1000000 * tv_sec t + tv_usec t)%Z.

(** Sum of a list *)
Definition total (ts : list R) : R := fold_left Rplus ts 0%R.
