(** stability_region/main.cpp: the program that tabulates stability functions. *)
From Coq Require Import String.
From Verif Require Import Model.Base Model.Scalar Model.LinAlg Model.Enums Model.Coeffs Model.IrkCoeffs Model.ErkCoeffs.
Local Open Scope sc_scope.
Local Open Scope mon_scope.

(** [std::complex<T>]: real and imaginary part *)
Definition cx (T : Type) : Type := (T * T)%type.
Definition re {T} (z : cx T) : T := fst z.
Definition im {T} (z : cx T) : T := snd z.

(** The complex operations the program uses.  How they round (and how std::complex multiplies non-finite numbers) is left open;
    [cx_inv_times] is [arma::inv(M)*e] with a real vector e, [None] when Armadillo throws [std::runtime_error]. *)
Class CxAlg (T : Type) := {
  cx_add : cx T -> cx T -> cx T;
  cx_mul : cx T -> cx T -> cx T;
  cx_abs : cx T -> T;                                          (* std::fabs(std::complex) of libstdc++ *)
  cx_inv_times : mat (cx T) -> list T -> option (nat -> cx T);
  cx_dot : list T -> list (cx T) -> cx T                       (* arma::dot(x,y), x real *)
}.

(** A line of an output file: numbers, an empty line, the heading of the third file. *)
Inductive line (T : Type) := Nums (l : list T) | Blank | Heading.
Arguments Nums {T} l. Arguments Blank {T}. Arguments Heading {T}.

(** [for (x in l) r.push_back(f(x))] *)
Fixpoint mapR {A B} (f : A -> res B) (l : list A) : res (list B) :=
  match l with
  | [] => Ok []
  | a :: l' => b <-- f a ;; bs <-- mapR f l' ;; Ok (b :: bs)
  end.

Section StabRegion.
  Context {T : Type} `{Scalar T} `{Env T} `{CxAlg T}.

  (** stability_region/main.cpp:37-40, [I - z*A]; Armadillo throws when the sizes differ *)
  Definition stab_matrix (N : nat) (z : cx T) (A : mat T) : res (mat (cx T)) :=
    if (nrows A =? N) && (ncols A =? N)
    then Ok (mtab N N (fun i j => let a := nth i (nth j (mcols A) []) (sZ 0) in
                                  ((if i =? j then sZ 1 else sZ 0) -. re z *. a, sZ 0 -. im z *. a)))
    else Err (EThrow ELogic).

  (** stability_region/main.cpp:33-44, stability_function *)
  Definition stability_function (z : cx T) (A : mat T) (b : list T) : res (cx T) :=
    let N := length b in
    let e := repeat (slit 1 0) N in
    M <-- stab_matrix N z A ;;
    match cx_inv_times M e with
    | Some x => Ok (cx_add (slit 1 0, slit 0 0) (cx_mul z (cx_dot b (vtab N x))))
    | None => Err (EThrow ERuntime)
    end.

  (** stability_region/main.cpp:47-79, rk_to_stab_region.  The matrix S is the list of its rows, in the order in which they are
      filled. *)
  Definition rk_to_stab_region (X Y : list T) (sc : solver_coeffs T) (embedded_method : bool) : res (list (list T)) :=
    mapR (fun x => mapR (fun y =>
      v <-- stability_function (x, y) (sc_A sc) (if embedded_method then sc_b2 sc else sc_b sc) ;;
      Ok (cx_abs v)) Y) X.

  (** [S(i,j)] *)
  Definition sget (S : list (list T)) (i j : nat) : res T :=
    match nth_error S i with
    | Some r => match nth_error r j with Some x => Ok x | None => Err (EThrow ELogic) end
    | None => Err (EThrow ELogic)
    end.

  (** [arma::linspace(a, b, n)] for n >= 2 *)
  Definition linspace (a b : T) (n : nat) : list T :=
    vtab (n - 1) (fun i => a +. sZ (Z.of_nat i) *. ((b -. a) /. sZ (Z.of_nat (n - 1)))) ++ [b].

  Local Notation W := (list (line T)).
  Definition put (l : line T) : M W unit := fun w => (w ++ [l], Ok tt).

  (** [irk::name_to_method], [erk::name_to_method] with the tables as initialised; looking up a name repeatedly gives the same
      answer *)
  Definition irk_id (name : string) : Z := snd (name_to_method (reg_init irk_methods) name).
  Definition erk_id (name : string) : Z := snd (name_to_method (reg_init erk_methods) name).

  (** stability_region/main.cpp:84-86 *)
  Definition limit_points : list T :=
    [slit (-1) 8; slit (-1) 7; slit (-1) 6; slit (-1) 5; slit (-1) 4; slit (-1) 3; slit (-1) 2; slit (-10) 0;
     slit (-9) 0; slit (-8) 0; slit (-7) 0; slit (-6) 0; slit (-5) 0; slit (-4) 0; slit (-3) 0; slit (-2) 0; slit (-15) (-1); slit (-1) 0;
     slit (-9) (-1); slit (-8) (-1); slit (-7) (-1); slit (-6) (-1); slit (-5) (-1); slit (-4) (-1); slit (-3) (-1); slit (-2) (-1);
     slit (-1) (-1); slit 0 0; slit 1 (-1); slit 2 (-1); slit 3 (-1); slit 4 (-1); slit 5 (-1); slit 5 (-1); slit 1 0].

  (** stability_region/main.cpp:91-95 and 98-102: one table.  A line is written whole or, when a value throws, not at all (the code
      may have written its beginning). *)
  Definition limit_lines (sc : solver_coeffs T) : M W unit :=
    foldM (fun x _ =>
      v <- lift (stability_function (x, slit 0 0) (sc_A sc) (sc_b sc)) ;;
      v2 <- lift (stability_function (x, slit 0 0) (sc_A sc) (sc_b2 sc)) ;;
      put (Nums [x; cx_abs v; cx_abs v2])) limit_points tt.

  (** stability_region/main.cpp:82-104, stability_limit *)
  Definition stability_limit (method : string) : M W unit :=
    put Heading ;;;
    if negb (irk_id method =? 0)%Z then
      sc <- lift (irk_get_coefficients (irk_id method)) ;; limit_lines sc
    else if negb (erk_id method =? 0)%Z then
      sc <- lift (erk_get_coefficients (erk_id method)) ;; limit_lines sc
    else ret tt.

  (** stability_region/main.cpp:111-112 *)
  Definition grid_X : list T := linspace (sZ (-190)) (sZ 10) 400.
  Definition grid_Y : list T := linspace (sZ (-20)) (sZ 20) 80.

  (** stability_region/main.cpp:107-136, stability_region.  For an explicit method the coefficients come from
      irk::get_coefficients (line 123).  Lines are written whole, as above; messages to stderr are not modelled. *)
  Definition stability_region (method : string) (embedded_method : bool) : M W unit :=
    S0 <- (if negb (irk_id method =? 0)%Z then
             sc <- lift (irk_get_coefficients (irk_id method)) ;; lift (rk_to_stab_region grid_X grid_Y sc embedded_method)
           else ret []) ;;
    S <- (if negb (erk_id method =? 0)%Z then
            sc <- lift (irk_get_coefficients (erk_id method)) ;; lift (rk_to_stab_region grid_X grid_Y sc embedded_method)
          else ret S0) ;;
    foldM (fun (jy : nat * T) _ =>
      foldM (fun (ix : nat * T) _ =>
        v <- lift (sget S (fst ix) (fst jy)) ;; put (Nums [snd ix; snd jy; v])) (combine (seq 0 400) grid_X) tt ;;;
      put Blank) (combine (seq 0 80) grid_Y) tt.

  (** stability_region/main.cpp:139-173, main, given argv[1] if there is one: the contents of the three files it writes and the
      outcome.  The files are named after the method; the coefficients printed to stderr at the start are not modelled (but the call
      of get_coefficients is). *)
  Definition stab_main (argv1 : option string) : (W * W * W) * res Z :=
    match argv1 with
    | None => (([], [], []), Ok (-1)%Z)
    | Some method =>
        match (if negb (irk_id method =? 0)%Z then rbind (irk_get_coefficients (irk_id method)) (fun _ => Ok tt) else Ok tt) with
        | Err e => (([], [], []), Err e)
        | Ok _ =>
            let (w1, r1) := stability_region method false [] in
            match r1 with
            | Err e => ((w1, [], []), Err e)
            | Ok _ =>
                let (w2, r2) := stability_region method true [] in
                match r2 with
                | Err e => ((w1, w2, []), Err e)
                | Ok _ =>
                    let (w3, r3) := stability_limit method [] in
                    match r3 with
                    | Err e => ((w1, w2, w3), Err e)
                    | Ok _ => ((w1, w2, w3), Ok 0%Z)
                    end
                end
            end
        end
    end.
End StabRegion.
