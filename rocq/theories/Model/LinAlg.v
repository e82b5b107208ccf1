(** Vectors and matrices (arma::vec, arma::mat) and the Armadillo operations the library uses.

    A vector is the list of its entries; a matrix is the list of its columns (Armadillo is column-major).
    Armadillo checks dimensions and throws [std::logic_error]; those checks are modelled here.  What the numerical
    kernels compute (BLAS/LAPACK: summation order, pivoting, singular systems) is left to the oracle [LinAlg]. *)
From Verif Require Import Model.Base Model.Scalar.
Local Open Scope sc_scope.
Local Open Scope mon_scope.

Record mat (T : Type) := Mat { nrows : nat; mcols : list (list T) }.
Arguments Mat {T} nrows mcols.
Arguments nrows {T} m.
Arguments mcols {T} m.
Definition ncols {T} (A : mat T) : nat := length (mcols A).
(** [arma::Mat::size()]: number of elements *)
Definition msize {T} (A : mat T) : nat := nrows A * ncols A.
Definition mat_empty {T} : mat T := Mat 0 [].

(** Tabulated vectors and matrices. *)
Definition vtab {T} (n : nat) (f : nat -> T) : list T := map f (seq 0 n).
Definition mtab {T} (n m : nat) (f : nat -> nat -> T) : mat T :=
  Mat n (map (fun j => map (fun i => f i j) (seq 0 n)) (seq 0 m)).

(** [A(i,j)]: Armadillo throws on an index out of bounds. *)
Definition mget {T} (A : mat T) (i j : nat) : res T :=
  match nth_error (mcols A) j with
  | Some c => match nth_error c i with Some x => Ok x | None => Err (EThrow ELogic) end
  | None => Err (EThrow ELogic)
  end.
(** [x(i)] throws out of bounds.  The solvers also read [x[i]], unchecked by Armadillo, but only at indices in range *)
Definition vget {T} (x : list T) (i : nat) : res T :=
  match nth_error x i with Some a => Ok a | None => Err (EThrow ELogic) end.
(** [A.col(j)] *)
Definition mcol {T} (A : mat T) (j : nat) : res (list T) :=
  match nth_error (mcols A) j with Some c => Ok c | None => Err (EThrow ELogic) end.
(** [A.col(j) = v] *)
Definition mset_col {T} (A : mat T) (j : nat) (v : list T) : res (mat T) :=
  if (j <? ncols A) && (length v =? nrows A)
  then Ok (Mat (nrows A) (list_set (mcols A) j v))
  else Err (EThrow ELogic).
(** [arma::vectorise(A)]: columns stacked. *)
Definition vectorise {T} (A : mat T) : list T := concat (mcols A).
(** [A(i,j) = x] on in-range indices. *)
Definition mset {T} (A : mat T) (i j : nat) (x : T) : mat T :=
  Mat (nrows A) (list_set (mcols A) j (list_set (nth j (mcols A) []) i x)).
(** Brace initialisation [{ {row0}, {row1}, ... }] of equal-length rows. *)
Definition of_rows {T} (d : T) (rows : list (list T)) : mat T :=
  mtab (length rows) (length (nth 0 rows [])) (fun i j => nth j (nth i rows []) d).
(** [A.t()] *)
Definition transpose {T} (d : T) (A : mat T) : mat T :=
  mtab (ncols A) (nrows A) (fun i j => nth j (nth i (mcols A) []) d).

Section Ops.
  Context {T : Type} `{Scalar T}.

  Definition zipwith (f : T -> T -> T) (x y : list T) : list T :=
    map (fun p => f (fst p) (snd p)) (combine x y).

  (** Elementwise operations; a size mismatch throws. *)
  Definition vadd (x y : list T) : res (list T) :=
    if length x =? length y then Ok (zipwith sadd x y) else Err (EThrow ELogic).
  Definition vsub (x y : list T) : res (list T) :=
    if length x =? length y then Ok (zipwith ssub x y) else Err (EThrow ELogic).
  Definition vscale (k : T) (x : list T) : list T := map (fun a => k *. a) x.
  Definition vneg (x : list T) : list T := map (fun a => -. a) x.
  Definition vdiv (x : list T) (k : T) : list T := map (fun a => a /. k) x.
  Definition vzeros (n : nat) : list T := repeat (sZ 0) n.

  Definition eye (n : nat) : mat T := mtab n n (fun i j => if i =? j then sZ 1 else sZ 0).
  Definition mzeros (n m : nat) : mat T := mtab n m (fun _ _ => sZ 0).
  Definition mscale (k : T) (A : mat T) : mat T := Mat (nrows A) (map (vscale k) (mcols A)).
  Definition mneg (A : mat T) : mat T := Mat (nrows A) (map vneg (mcols A)).
  Definition msame (A B : mat T) : bool := (nrows A =? nrows B) && (ncols A =? ncols B).
  Definition mzip (f : T -> T -> T) (A B : mat T) : mat T :=
    Mat (nrows A) (map (fun p => zipwith f (fst p) (snd p)) (combine (mcols A) (mcols B))).
  Definition msub (A B : mat T) : res (mat T) :=
    if msame A B then Ok (mzip ssub A B) else Err (EThrow ELogic).
  Definition madd (A B : mat T) : res (mat T) :=
    if msame A B then Ok (mzip sadd A B) else Err (EThrow ELogic).
  (** [arma::kron(A,B)]: block (i,j) is A(i,j)*B. *)
  Definition kron (A B : mat T) : mat T :=
    Mat (nrows A * nrows B)
        (flat_map (fun ca => map (fun cb => flat_map (fun a => vscale a cb) ca) (mcols B)) (mcols A)).
  (** [arma::reshape(v, n, m)] of a vector with n*m entries. *)
  Fixpoint chunks (n m : nat) (v : list T) : list (list T) :=
    match m with O => [] | S m' => firstn n v :: chunks n m' (skipn n v) end.
  Definition reshape (v : list T) (n m : nat) : mat T := Mat n (chunks n m v).
End Ops.

(** The numerical kernels.  Results are given entrywise, so that they have the documented dimensions by
    construction; [None] means that Armadillo throws [std::runtime_error]. *)
Class LinAlg (T : Type) := {
  la_mv : mat T -> list T -> nat -> T;                       (* A*x *)
  la_mm : mat T -> mat T -> nat -> nat -> T;                 (* A*B *)
  la_dot : list T -> list T -> T;                            (* arma::dot(x,y) *)
  la_norminf : list T -> T;                                  (* arma::norm(x,"inf") *)
  la_solve : mat T -> list T -> option (nat -> T);           (* arma::solve(A,b) *)
  la_trisolve : bool -> mat T -> list T -> option (nat -> T);(* solve(trimatu(A),b) if true, trimatl if false *)
  la_inv : mat T -> option (nat -> nat -> T);                (* arma::inv(A) *)
  la_lu : mat T -> option ((nat -> nat -> T) * (nat -> nat -> T) * (nat -> nat -> T))
                                                             (* arma::lu(L,U,P,A); None: returns false *)
}.

Section Kernels.
  Context {T : Type} `{LinAlg T}.

  Definition mv (A : mat T) (x : list T) : res (list T) :=
    if ncols A =? length x then Ok (vtab (nrows A) (la_mv A x)) else Err (EThrow ELogic).
  Definition mm (A B : mat T) : res (mat T) :=
    if ncols A =? nrows B then Ok (mtab (nrows A) (ncols B) (la_mm A B)) else Err (EThrow ELogic).
  Definition dot (x y : list T) : res T :=
    if length x =? length y then Ok (la_dot x y) else Err (EThrow ELogic).
  Definition solve (A : mat T) (b : list T) : res (list T) :=
    if nrows A =? length b then
      match la_solve A b with
      | Some x => Ok (vtab (ncols A) x)
      | None => Err (EThrow ERuntime)
      end
    else Err (EThrow ELogic).
  (** [arma::solve(arma::trimatu(A), b)] / [trimatl]; the argument must be square. *)
  Definition trisolve (upper : bool) (A : mat T) (b : list T) : res (list T) :=
    if (nrows A =? ncols A) && (nrows A =? length b) then
      match la_trisolve upper A b with
      | Some x => Ok (vtab (ncols A) x)
      | None => Err (EThrow ERuntime)
      end
    else Err (EThrow ELogic).
  Definition inv (A : mat T) : res (mat T) :=
    if nrows A =? ncols A then
      match la_inv A with
      | Some f => Ok (mtab (nrows A) (nrows A) f)
      | None => Err (EThrow ERuntime)
      end
    else Err (EThrow ELogic).
End Kernels.

(** Properties of the build and of the machine that the code can observe. *)
Class Env (T : Type) := {
  ndebug : bool;      (* compiled with -DNDEBUG? (the shipped Makefile does not) *)
  junk : T;           (* content of uninitialised matrix memory *)
  clock : T           (* elapsed wall-clock time reported by my_timer *)
}.

(** The user's right-hand side (functor.hpp:35-73): methods [fun] and [jac], possibly
    with hidden state [St], possibly throwing. *)
Record functor (T St : Type) := Functor {
  f_fun : T -> list T -> M St (list T);
  f_jac : T -> list T -> M St (mat T)
}.
Arguments Functor {T St} f_fun f_jac.
Arguments f_fun {T St} f _ _ _.
Arguments f_jac {T St} f _ _ _.

(** The world of a solver run: functor state and the lines written to [output_opts.output_stream] (each line a
    time followed by the state). *)
Record world (T St : Type) := World { w_st : St; w_out : list (T * list T) }.
Arguments World {T St} w_st w_out.
Arguments w_st {T St} w.
Arguments w_out {T St} w.

Definition in_world {T St A} (m : M St A) : M (world T St) A :=
  fun w => let (s, r) := m (w_st w) in (World s (w_out w), r).
Definition write_line {T St} (t : T) (y : list T) : M (world T St) unit :=
  fun w => (World (w_st w) (w_out w ++ [(t, y)]), Ok tt).
