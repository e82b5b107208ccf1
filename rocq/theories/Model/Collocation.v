(** irk.cpp: expand, collocation_interpolate_coeffs, project_b; erk.cpp: project_b. *)
From Verif Require Import Model.Base Model.Scalar Model.LinAlg.
Local Open Scope sc_scope.
Local Open Scope mon_scope.

(** irk.cpp:24: a sum of products; -1 stands for x, j >= 0 for the j-th variable *)
Definition coeff_list := list (list Z).

(** irk.cpp:26-52, expand *)
Definition expand (c1 c2 : coeff_list) : coeff_list :=
  flat_map (fun ci => map (fun cj => ci ++ cj) c2) c1.

Section Collocation.
  Context {T : Type} `{Scalar T} `{LinAlg T} `{Env T}.

  (** irk.cpp:142-152: d(i) = prod over j <> i of (c(i) - c(j)) *)
  Definition coll_d (c : list T) (i : nat) : T :=
    fold_left (fun cfacs j => if j =? i then cfacs
                              else cfacs *. (nth i c (sZ 0) -. nth j c (sZ 0)))
              (seq 0 (length c)) (slit 10 (-1)).

  (** irk.cpp:154-170: the expanded numerator of the i-th Lagrange polynomial *)
  Definition coll_poly (Ns i : nat) : coeff_list :=
    fold_left (fun ci j => if i =? j then ci
                           else match ci with
                                | [] => [[(-1)%Z]; [Z.of_nat j]]
                                | _ => expand ci [[(-1)%Z]; [Z.of_nat j]]
                                end)
              (seq 0 Ns) [].

  (** irk.cpp:182-186: the number of factors x *)
  Definition coll_order (cf : list Z) : nat := count_occ Z.eq_dec cf (-1)%Z.

  (** irk.cpp:191-197: the term's coefficient; [c[j]] is unchecked; the indices are always in range *)
  Definition coll_coeff (c : list T) (i : nat) (cf : list Z) : res T :=
    foldR (fun j coeff => if (j =? -1)%Z then Ok coeff
                          else cj <-- (if (j <? 0)%Z then Err (EThrow ELogic) else vget c (Z.to_nat j)) ;;
                               Ok (coeff *. (-. cj)))
          cf (slit 10 (-1) /. coll_d c i /. (slit 10 (-1) +. sZ (Z.of_nat (coll_order cf)))).

  (** irk.cpp:199-205: add the coefficient to b_interp(i, Ns - order - 1) *)
  Definition coll_add (c : list T) (i : nat) (cf : list Z) (b_interp : mat T) : res (mat T) :=
    coeff <-- coll_coeff c i cf ;;
    let idx := (Z.of_nat (length c) - Z.of_nat (coll_order cf) - 1)%Z in
    if negb ndebug && negb ((0 <=? idx)%Z && (idx <? Z.of_nat (length c))%Z) then Err EAbort
    else if (idx <? 0)%Z then Err (EThrow ELogic)
    else old <-- mget b_interp i (Z.to_nat idx) ;;
         Ok (mset b_interp i (Z.to_nat idx) (old +. coeff)).

  (** irk.cpp:111-210, collocation_interpolate_coeffs *)
  Definition collocation_interpolate_coeffs (c : list T) : res (mat T) :=
    let Ns := length c in
    foldR (fun i b_interp => foldR (fun cf b => coll_add c i cf b) (coll_poly Ns i) b_interp)
          (seq 0 Ns) (mzeros Ns Ns).

  (** irk.cpp:735-744: ts = (theta^Ns, ..., theta^2, theta), each power by repeated multiplication *)
  Fixpoint spowers (theta tt : T) (n : nat) : list T :=
    match n with O => [] | S n' => tt :: spowers theta (tt *. theta) n' end.

  (** irk.cpp:731-747, irk::project_b, on the number of stages and the interpolation matrix *)
  Definition project_b (theta : T) (Ns : nat) (b_interp : mat T) : res (list T) :=
    if negb ndebug && (msize b_interp =? 0) then Err EAbort
    else mv b_interp (rev (spowers theta theta Ns)).

  (** erk.cpp:281-299, erk::project_b: the same computation *)
  Definition erk_project_b (theta : T) (Ns : nat) (b_interp : mat T) : res (list T) :=
    if negb ndebug && (msize b_interp =? 0) then Err EAbort
    else mv b_interp (rev (spowers theta theta Ns)).
End Collocation.
