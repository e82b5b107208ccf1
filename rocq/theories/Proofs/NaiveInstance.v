(** Straightforward matrix products for any scalar type: used for example runs only. *)
From Verif Require Import Model.Base Model.Scalar Model.LinAlg.
Local Open Scope sc_scope.

Definition naive_LA (T : Type) (HS : Scalar T) : LinAlg T := {|
  la_mv A x i := fold_left (fun acc p => acc +. nth i (fst p) (sZ 0) *. snd p) (combine (mcols A) x) (sZ 0);
  la_mm A B i j := fold_left (fun acc p => acc +. nth i (fst p) (sZ 0) *. snd p) (combine (mcols A) (nth j (mcols B) [])) (sZ 0);
  la_dot x y := fold_left (fun acc p => acc +. fst p *. snd p) (combine x y) (sZ 0);
  la_norminf x := fold_left (fun acc a => smax acc (sabs a)) x (sZ 0);
  la_solve A b := None;
  la_trisolve u A b := None;
  la_inv A := None;
  la_lu A := None
|}.

(** Elimination without concern for stability: rows hold the coefficients and the right-hand side.  Like [naive_LA] it
    serves example runs only; its factorisation is the trivial one (L = P = 1, U = A) and its triangular solver is the
    general one. *)
Section Gauss.
  Context {T : Type} {HS : Scalar T}.
  Fixpoint pick (rows : list (list T)) : option (list T * list (list T)) :=
    match rows with
    | [] => None
    | r :: rs => if hd (sZ 0) r ==?. sZ 0 then match pick rs with Some (p, q) => Some (p, r :: q) | None => None end else Some (r, rs)
    end.
  Definition reduce (p r : list T) : list T :=
    let k := hd (sZ 0) r /. hd (sZ 0) p in map (fun q => fst q -. k *. snd q) (combine (tl r) (tl p)).
  Fixpoint eliminate (n : nat) (rows : list (list T)) : option (list T) :=
    match n with
    | O => Some []
    | S n' => match pick rows with
              | None => None
              | Some (p, rs) =>
                  match eliminate n' (map (reduce p) rs) with
                  | None => None
                  | Some xs => Some ((fold_left (fun acc q => acc -. fst q *. snd q) (combine (tl p) xs) (last p (sZ 0)) /. hd (sZ 0) p) :: xs)
                  end
              end
    end.
  Definition augmented (A : mat T) (b : list T) : list (list T) :=
    map (fun i => map (fun c => nth i c (sZ 0)) (mcols A) ++ [nth i b (sZ 0)]) (seq 0 (nrows A)).
  Definition gauss_solve (A : mat T) (b : list T) : option (nat -> T) :=
    match eliminate (ncols A) (augmented A b) with Some x => Some (fun i => nth i x (sZ 0)) | None => None end.
  Definition gauss_inv (A : mat T) : option (nat -> nat -> T) :=
    let cols := map (fun j => eliminate (ncols A) (augmented A (map (fun i => if i =? j then sZ 1 else sZ 0) (seq 0 (nrows A))))) (seq 0 (ncols A)) in
    if forallb (fun c => match c with Some _ => true | None => false end) cols
    then Some (fun i j => nth i (match nth j cols None with Some x => x | None => [] end) (sZ 0)) else None.
  Definition gauss_LA : LinAlg T := {|
    la_mv A x i := fold_left (fun acc p => acc +. nth i (fst p) (sZ 0) *. snd p) (combine (mcols A) x) (sZ 0);
    la_mm A B i j := fold_left (fun acc p => acc +. nth i (fst p) (sZ 0) *. snd p) (combine (mcols A) (nth j (mcols B) [])) (sZ 0);
    la_dot x y := fold_left (fun acc p => acc +. fst p *. snd p) (combine x y) (sZ 0);
    la_norminf x := fold_left (fun acc a => smax acc (sabs a)) x (sZ 0);
    la_solve := gauss_solve;
    la_trisolve u := gauss_solve;
    la_inv := gauss_inv;
    la_lu A := Some (fun i j => if i =? j then sZ 1 else sZ 0, fun i j => nth i (nth j (mcols A) []) (sZ 0), fun i j => if i =? j then sZ 1 else sZ 0)
  |}.
End Gauss.
