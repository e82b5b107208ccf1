(** Outcomes, the world-passing monad and loops.

    These are not functions of /repo: they give C++ control flow a total meaning.  A C++ computation either
    yields a value, throws, fails an [assert], has undefined behaviour, or (for loops only) is not finished
    within the number of iterations we unroll. *)
From Coq Require Export List ZArith Lia Bool Arith.
Export ListNotations.

(** C++ exceptions that can leave the library: [std::logic_error] (Armadillo dimension and bound checks,
    [std::length_error]), [std::runtime_error] (Armadillo's [solve]/[inv] failures), or anything thrown by
    the user's functor. *)
Inductive exn := ELogic | ERuntime | EUser (code : nat).

Inductive err :=
| EThrow (e : exn)   (* an exception *)
| EAbort             (* a failed assert: the process aborts *)
| EUB                (* undefined behaviour *)
| EFuel.             (* the loop was not finished within the given number of iterations *)

Inductive res (A : Type) : Type :=
| Ok (a : A)
| Err (e : err).
Arguments Ok {A} a.
Arguments Err {A} e.

Definition rbind {A B} (m : res A) (k : A -> res B) : res B :=
  match m with Ok a => k a | Err e => Err e end.

(** Computations that may change a world [W] (the user's functor state and the output stream).  The world is
    returned also on failure, because what was written to the stream stays written. *)
Definition M (W A : Type) : Type := W -> W * res A.

Definition ret {W A} (a : A) : M W A := fun w => (w, Ok a).
Definition fail {W A} (e : err) : M W A := fun w => (w, Err e).
Definition bind {W A B} (m : M W A) (k : A -> M W B) : M W B :=
  fun w => let (w1, r) := m w in
           match r with Ok a => k a w1 | Err e => (w1, Err e) end.
Definition lift {W A} (r : res A) : M W A := fun w => (w, r).

Declare Scope mon_scope.
Delimit Scope mon_scope with mon.
Notation "x <- m ;; k" := (bind m (fun x => k))
  (at level 61, m at next level, right associativity) : mon_scope.
Notation "' p <- m ;; k" := (bind m (fun x => match x with p => k end))
  (at level 61, p pattern, m at next level, right associativity) : mon_scope.
Notation "m ;;; k" := (bind m (fun _ => k)) (at level 61, right associativity) : mon_scope.
Notation "x <-- m ;; k" := (rbind m (fun x => k))
  (at level 61, m at next level, right associativity) : mon_scope.

(** [assert(b)]: aborts unless compiled with NDEBUG. *)
Definition assert_ {W} (ndebug b : bool) : M W unit :=
  if ndebug then ret tt else if b then ret tt else fail EAbort.

(** A loop [while (cond s) { body }] whose body either ends normally with a new state ([inl]) or returns from
    the enclosing function ([inr]).  [EFuel] if the condition still holds after [fuel] iterations. *)
Section While.
  Context {W S R : Type} (cond : S -> bool) (body : S -> M W (S + R)).
  Fixpoint while (fuel : nat) (s : S) : M W (S + R) :=
    if cond s then
      match fuel with
      | O => fail EFuel
      | Datatypes.S f =>
          bind (body s) (fun r => match r with
                                  | inl s' => while f s'
                                  | inr x => ret (inr x)
                                  end)
      end
    else ret (inl s).
End While.

(** [for (i in l) acc = body(i, acc)] *)
Fixpoint foldM {W A X} (body : X -> A -> M W A) (l : list X) (a : A) : M W A :=
  match l with
  | [] => ret a
  | x :: l' => bind (body x a) (fun a' => foldM body l' a')
  end.

Fixpoint foldR {A X} (body : X -> A -> res A) (l : list X) (a : A) : res A :=
  match l with
  | [] => Ok a
  | x :: l' => rbind (body x a) (fun a' => foldR body l' a')
  end.

(** [l[i] = x] on a list; the caller checks the bound. *)
Fixpoint list_set {A} (l : list A) (i : nat) (x : A) : list A :=
  match l, i with
  | [], _ => []
  | _ :: l', O => x :: l'
  | a :: l', S i' => a :: list_set l' i' x
  end.
