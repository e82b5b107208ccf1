(** What a run of an adaptive one-step integrator looks like from outside: a sequence of attempted steps. *)
From Verif Require Import Model.Base Model.Scalar Model.LinAlg Model.Coeffs Spec.Observe.
Local Open Scope sc_scope.

(** One attempted step: start time, step size, the new state it computed, its error measure, accepted or not. *)
Record attempt (T : Type) := Attempt { at_t : T; at_dt : T; at_yn : list T; at_err : T; at_ok : bool }.
Arguments Attempt {T}. Arguments at_t {T}. Arguments at_dt {T}. Arguments at_yn {T}. Arguments at_err {T}. Arguments at_ok {T}.

Definition accepted {T} (l : list (attempt T)) : list (attempt T) := filter at_ok l.
Definition rejected {T} (l : list (attempt T)) : list (attempt T) := filter (fun a => negb (at_ok a)) l.

Section Spec.
  Context {T : Type} `{Scalar T}.
  (** end time of an attempt *)
  Definition at_end (a : attempt T) : T := at_t a +. at_dt a.
  (** the time reached after some attempts *)
  Definition time_after (t0 : T) (l : list (attempt T)) : T := fold_left (fun t a => if at_ok a then at_end a else t) l t0.
  (** every attempt starts where the accepted ones before it ended *)
  Definition chained (t0 : T) (l : list (attempt T)) : Prop :=
    forall k a, nth_error l k = Some a -> at_t a = time_after t0 (firstn k l).
  (** a relation between consecutive attempts *)
  Definition consecutive {A} (P : A -> A -> Prop) (l : list A) : Prop :=
    forall k a b, nth_error l k = Some a -> nth_error l (S k) = Some b -> P a b.
  (** times of the right-hand side calls of an attempt, for the stages [lo..s-1] with abscissae [c] *)
  Definition stage_times (c : list T) (lo : nat) (a : attempt T) : list T :=
    map (fun i => at_t a +. nth i c (sZ 0) *. at_dt a) (seq lo (length c - lo)).
End Spec.

Definition call_time {T} (c : call T) : T := match c with CallFun t _ => t | CallJac t _ => t end.

(** The same tableau with the first-same-as-last flag cleared: the integrator then evaluates every stage of every
    attempt. *)
Definition without_reuse {T} (sc : solver_coeffs T) : solver_coeffs T :=
  SolverCoeffs (sc_b sc) (sc_c sc) (sc_A sc) (sc_b2 sc) (sc_order sc) (sc_order2 sc) false (sc_gamma sc) (sc_b_interp sc).

(** A right-hand side that answers every call with a vector of NaNs. *)
From Flocq Require IEEE754.BinarySingleNaN.
Definition nan : f64 := BinarySingleNaN.B754_nan.
Definition always_nan {St} (F : functor f64 St) (n : nat) : Prop := forall t y s, exists s', f_fun F t y s = (s', Ok (repeat nan n)).
(** Products of a matrix of NaNs with a non-empty vector are NaN. *)
Definition nan_products (LA : LinAlg f64) : Prop :=
  forall A x i, x <> [] -> ncols A = length x -> (i < nrows A)%nat -> Forall (fun c => c = repeat nan (nrows A)) (mcols A) -> la_mv A x i = nan.
(** C and C++ [pow] of a NaN: NaN unless the exponent is zero. *)
Definition pow_nan (pw : f64 -> f64 -> f64) : Prop := forall x, BinarySingleNaN.Beqb x (f64_lit 0 0) = false -> pw nan x = nan.
(** The step size that follows an attempt of size [d] whose error norm is NaN: 0.9 * d * 4, not above [max_dt] if that is positive;
    and the times of a run in which every attempt is like that. *)
Definition nan_next {T} `{Scalar T} (max_dt d : T) : T :=
  let d' := (slit 9 (-1) *. d *. sZ 4)%sc in if (max_dt >?. sZ 0)%sc then smin max_dt d' else d'.
Fixpoint nan_grid {T} `{Scalar T} (max_dt t1 : T) (k : nat) (t d : T) : list T :=
  match k with
  | O => []
  | S k => let h := if (t +. d >?. t1)%sc then (t1 -. t)%sc else d in
           t :: nan_grid max_dt t1 k (t +. h)%sc (nan_next max_dt h)
  end.

(** The double m * 2^e (exact when it is representable). *)
Definition dyadic (m e : Z) : f64 := BinarySingleNaN.binary_normalize 53 1024 _ _ BinarySingleNaN.mode_NE m e false.
