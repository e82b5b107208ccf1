(** Doubles: what is assumed of the C library's [pow], and the times of solvers that add a fixed step again and again. *)
From Coq Require Import Reals Sorted.
From Flocq Require Import Core IEEE754.BinarySingleNaN.
From Verif Require Import Model.Base Model.Scalar.

(** A power of a number without a sign bit has no sign bit (a NaN, of which the model has only one, counts as having none).
    Every [pow] that follows IEEE 754 does this. *)
Definition pow_keeps_sign (pw : f64 -> f64 -> f64) : Prop := forall x y, Bsign x = false -> Bsign (pw x y) = false.

Local Open Scope R_scope.
(** The times [ts] of a solver that adds the step size [h] again and again, starting with [k] of them whatever they are: finite,
    never going back, off the exact times t0 + i h by at most i roundings, and beyond t1 by at most one step unless only the first [k]
    were needed. *)
Definition clock_in_doubles (k : nat) (t0 t1 h : f64) (ts : list f64) : Prop :=
  let N := length ts in let tv i := B2R (nth i ts t0) in
  Forall (fun t => is_finite t = true) ts /\ StronglySorted (fun s t => B2R s <= B2R t) ts /\
  (forall i, (i < N)%nat -> Rabs (tv i - (B2R t0 + INR i * B2R h)) <= INR i * (bpow radix2 (-53) * Rmax (Rabs (B2R t0)) (Rabs (tv (N - 1)%nat)))) /\
  (N = k \/ tv (N - 1)%nat <= B2R t1 + B2R h + bpow radix2 (-53) * Rabs (tv (N - 1)%nat)).
