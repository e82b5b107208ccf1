(** newton.hpp, newton.cpp: solvers for non-linear systems of equations. *)
From Coq Require Import String.
From Verif Require Import Model.Base Model.Scalar Model.LinAlg.
Local Open Scope sc_scope.
Local Open Scope mon_scope.

(** newton.hpp:45-51, enum newton_solve_ret_codes (an [int] in [status]). *)
Definition SUCCESS : Z := 0.
Definition INCREMENT_DIVERGE : Z := 1.
Definition ITERATION_ERROR_TOO_LARGE : Z := 2.
Definition MAXIT_EXCEEDED : Z := 3.
Definition GENERIC_ERROR : Z := 4.

(** newton.hpp:57-78, struct options *)
Record options (T : Type) := Options {
  o_tol : T;
  o_dx_delta : T;
  o_maxit : Z;
  o_time_internals : bool;
  o_max_step : T;
  o_refresh_jac : Z;
  o_precondition : bool;
  o_limit_step : bool
}.
Arguments Options {T}. Arguments o_tol {T}. Arguments o_dx_delta {T}. Arguments o_maxit {T}. Arguments o_time_internals {T}.
Arguments o_max_step {T}. Arguments o_refresh_jac {T}. Arguments o_precondition {T}. Arguments o_limit_step {T}.

(** newton.hpp:83-91, struct status *)
Record status (T : Type) := Status { st_conv : Z; st_res : T; st_iters : Z; st_eta_final : T }.
Arguments Status {T}. Arguments st_conv {T}. Arguments st_res {T}. Arguments st_iters {T}. Arguments st_eta_final {T}.

(** A non-linear system: the methods [fun] and [jac] of [functor_type] (newton.hpp:101-120, newton_lambda_wrapper). *)
Record nfunctor (T St : Type) := NFunctor { n_fun : list T -> M St (list T); n_jac : list T -> M St (mat T) }.
Arguments NFunctor {T St}. Arguments n_fun {T St} n _ _. Arguments n_jac {T St} n _ _.

(** newton.hpp:131-150, newton_functor_wrapper: an ODE's right-hand side at a fixed time *)
Definition newton_functor_wrapper {T St} (F : functor T St) (t : T) : nfunctor T St :=
  NFunctor (fun Y => f_fun F t Y) (fun Y => f_jac F t Y).

(** newton.cpp:6-22 *)
Definition status_message (status : Z) : string :=
  if (status =? SUCCESS)%Z then "SUCCESS"
  else if (status =? INCREMENT_DIVERGE)%Z then "INCREMENT_DIVERGE"
  else if (status =? ITERATION_ERROR_TOO_LARGE)%Z then "ITERATION_ERROR_TOO_LARGE"
  else if (status =? MAXIT_EXCEEDED)%Z then "MAXIT_EXCEEDED"
  else if (status =? GENERIC_ERROR)%Z then "GENERIC_ERROR"
  else "Unrecognized status code!".

Section Newton.
  Context {T : Type} `{Scalar T} `{LinAlg T} `{Env T}.

  (** newton.hpp:58-60 *)
  Definition options_default : options T :=
    Options (slit 1 (-4)) (slit 1 (-4)) 5000 false (sZ (-1)) 10 false false.
  (** newton.hpp:84 *)
  Definition status_default : status T := Status SUCCESS (sZ 0) 0 (sZ 0).

  Section System.
    Context {St : Type} (F : nfunctor T St).

    (** newton.hpp:197-216, the body of the loop over columns; the state is [J_approx], [new_yp], [new_ym]. *)
    Definition approx_column (y : list T) (h : T) (j : nat) (s : mat T * list T * list T) : M St (mat T * list T * list T) :=
      let '(Ja, yp, ym) := s in
      let N := length y in
      old_y_j <- lift (vget y j) ;;
      ypj <- lift (vget yp j) ;;
      ymj <- lift (vget ym j) ;;
      let yp := list_set yp j (ypj +. h) in
      let ym := list_set ym j (ymj -. h) in
      fp <- n_fun F yp ;;
      fm <- n_fun F ym ;;
      delta <- lift (vsub fp fm) ;;
      let delta := vdiv delta (slit 2 0 *. h) in
      Ja <- lift (foldR (fun i Ja => di <-- vget delta i ;; Ok (mset Ja i j di)) (seq 0 N) Ja) ;;
      ret (Ja, list_set yp j old_y_j, list_set ym j old_y_j).
    (** newton.hpp:186-218, approx_jacobi_matrix *)
    Definition approx_jacobi_matrix (y : list T) (h : T) : M St (mat T) :=
      let N := length y in
      _ <- n_fun F y ;;
      s <- foldM (approx_column y h) (seq 0 N) (mzeros N N, y, y) ;;
      ret (fst (fst s)).

    (** newton.hpp:229-252, verify_jacobi_matrix.  The message on [std::cerr] is not modelled.  The state of the
        double loop is [max_diff2]; line 240 assigns to [delta2], so it is never changed. *)
    Definition verify_jacobi_matrix (y : list T) : M St bool :=
      J_approx <- approx_jacobi_matrix y (slit 1 (-4)) ;;
      J_fun <- n_jac F y ;;
      let N := length y in
      max_diff2 <- lift (foldR (fun i m => foldR (fun j m =>
                           a <-- mget J_approx i j ;;
                           b <-- mget J_fun i j ;;
                           let delta := a -. b in
                           let delta2 := delta *. delta in
                           let delta2 := if delta2 >?. m then m else delta2 in
                           Ok m) (seq 0 N) m) (seq 0 N) (sZ 0)) ;;
      let max_diff := ssqrt max_diff2 in
      ret (if max_diff >?. slit 1 (-12) then false else true).

    (** newton.hpp:286-288 and 381-383 *)
    Definition max_step2_of (opts : options T) : T :=
      if o_max_step opts >?. sZ 0 then o_max_step opts *. o_max_step opts else sZ (-1).
    (** newton.hpp:311-316 and 465-470: the limit on the length of the update *)
    Definition limit_direction (max_step2 lambda : T) (direction : list T) : res (list T) :=
      if max_step2 >?. sZ 0 then
        norm2 <-- dot direction direction ;;
        if lambda *. lambda *. norm2 >?. max_step2
        then Ok (vscale (ssqrt (max_step2 /. norm2) /. lambda) direction)
        else Ok direction
      else Ok direction.

    (** ** Broyden's method *)

    (** newton.hpp:271-302: the variables of the loop.  [bs_x0] and [bs_f0] are [x0] and [f0]; [x] and [r] equal them
        at the head of the loop.  [bs_prints] counts the progress reports (newton.hpp:291-302, to [std::cerr]). *)
    Record bstate := BState {
      bs_x0 : list T; bs_f0 : list T; bs_res2 : T; bs_Jaci : mat T; bs_term : bool; bs_conv : Z; bs_iters : Z; bs_prints : nat }.

    (** newton.hpp:305-345, the loop body.  [left_part*xt_J / norm] (line 329) is the outer product divided by [norm]
        entry by entry; [dx.t()*Jaci] (line 325) is the product of the transposed matrix with [dx]. *)
    Definition broyden_body (opts : options T) (quiet : bool) (s : bstate) : M St (bstate + Empty_set) :=
      let prints := if quiet then bs_prints s else Datatypes.S (bs_prints s) in
      let lambda := sZ 1 /. ssqrt (sZ 1 +. bs_res2 s) in
      Jf <- lift (mv (bs_Jaci s) (bs_f0 s)) ;;
      let direction := vscale (-. lambda) Jf in
      direction <- lift (limit_direction (max_step2_of opts) lambda direction) ;;
      let incr := la_norminf direction in
      x <- lift (vadd (bs_x0 s) direction) ;;
      r <- n_fun F x ;;
      dx <- lift (vsub x (bs_x0 s)) ;;
      df <- lift (vsub r (bs_f0 s)) ;;
      xt_J <- lift (mv (transpose (sZ 0) (bs_Jaci s)) dx) ;;
      norm <- lift (dot xt_J df) ;;
      Jdf <- lift (mv (bs_Jaci s) df) ;;
      left_part <- lift (vsub dx Jdf) ;;
      Jaci <- lift (madd (bs_Jaci s) (mtab (length left_part) (length xt_J)
                      (fun i j => nth i left_part (sZ 0) *. nth j xt_J (sZ 0) /. norm))) ;;
      res2 <- lift (dot r r) ;;
      let term1 := incr <?. o_dx_delta opts in
      let term2 := res2 <?. o_tol opts *. o_tol opts in
      let terminate := if term1 then true else bs_term s in
      let conv := if term1 then SUCCESS else bs_conv s in
      let terminate := if term2 then true else terminate in
      let conv := if term2 then SUCCESS else conv in
      ret (inl (BState x r res2 Jaci terminate conv (bs_iters s + 1) prints)).

    (** newton.hpp:266-349, broyden_iterate.  Returns the result, [stats] and the number of progress reports.
        The loop runs at most [maxit] times. *)
    Definition broyden_iterate (x : list T) (opts : options T) (stats : status T) (quiet : bool)
      : M St (list T * status T * nat) :=
      r <- n_fun F x ;;
      res2 <- lift (dot r r) ;;
      z <- while (fun s => negb (bs_term s) && (bs_iters s <? o_maxit opts)%Z) (broyden_body opts quiet)
             (Z.to_nat (o_maxit opts))
             (BState x r res2 (eye (length x)) false SUCCESS 1 0) ;;
      match z with
      | inl s => ret (bs_x0 s, Status (bs_conv s) (ssqrt (bs_res2 s)) (bs_iters s) (st_eta_final stats), bs_prints s)
      | inr e => match e : Empty_set with end
      end.

    (** ** Newton's method *)

    (** [arma::lu(L,U,P,J)] (newton.hpp:392, 480): on failure the three matrices are reset to empty ones. *)
    Definition lu_or_reset (J : mat T) : mat T * mat T * mat T :=
      match la_lu J with
      | Some (l, u, p) =>
          let k := Nat.min (nrows J) (ncols J) in
          (mtab (nrows J) k l, mtab k (ncols J) u, mtab (nrows J) (nrows J) p)
      | None => (mat_empty, mat_empty, mat_empty)
      end.

    (** newton.hpp:367-420: the variables of the loop.  [f0], [theta_k], [eta_k] and [incr0] do not influence the
        result and are left out ([eta_k] is always 1).  [ns_prints] counts the progress reports (newton.hpp:403-418, to
        [std::cout]). *)
    Record nstate := NState {
      ns_x0 : list T; ns_xn : list T; ns_r : list T; ns_res2 : T; ns_J : mat T; ns_LUP : mat T * mat T * mat T;
      ns_term : bool; ns_conv : Z; ns_iters : Z; ns_prints : nat }.

    Section Impl.
      (** the template parameters [refresh_jac], [precondition], [limit_step] and [quiet]; [time_internals] is not used in
          the body *)
      Context (refresh_jac : Z) (precondition limit_step quiet : bool).
      (** newton.hpp:386 *)
      Definition store_LU : bool := (refresh_jac >? 3)%Z.

      (** newton.hpp:430-462, the [try] block: the direction and the updated [P] *)
      Definition newton_direction (N : nat) (J : mat T) (LUP : mat T * mat T * mat T) (r : list T) : res (list T * (mat T * mat T * mat T)) :=
        let '(L, U, P) := LUP in
        if precondition then
          P <-- foldR (fun i P => Jii <-- mget J i i ;;
                                  Ok (mset P i i (if negb (Jii ==?. sZ 0) then sZ 1 /. Jii else sZ 1))) (seq 0 N) P ;;
          PJ <-- mm P J ;;
          Pr <-- mv P r ;;
          d <-- solve PJ Pr ;;
          Ok (vneg d, (L, U, P))
        else if negb store_LU then
          d <-- solve J r ;;
          Ok (vneg d, LUP)
        else
          temp1 <-- mv P r ;;
          temp2 <-- trisolve false L temp1 ;;
          d <-- trisolve true U temp2 ;;
          Ok (d, LUP).

      (** newton.hpp:422-521, the loop body.  An exception out of the [try] block ends the call ([inr]). *)
      Definition newton_body (x : list T) (opts : options T) (stats : status T) (s : nstate)
        : M St (nstate + (list T * status T * nat)) :=
        let N := length x in
        let prints := if quiet then ns_prints s else Datatypes.S (ns_prints s) in
        let lambda := if limit_step then sZ 1 /. (sZ 1 +. ns_res2 s) else sZ 1 in
        match newton_direction N (ns_J s) (ns_LUP s) (ns_r s) with
        | Err (EThrow _) => ret (inr (x, Status GENERIC_ERROR (st_res stats) (ns_iters s) (st_eta_final stats), prints))
        | Err e => fail e
        | Ok (direction, LUP) =>
            direction <- lift (limit_direction (max_step2_of opts) lambda direction) ;;
            xn <- lift (vadd (ns_x0 s) (vscale lambda direction)) ;;
            J <- (if negb (refresh_jac =? 0)%Z then n_jac F xn else ret (ns_J s)) ;;
            let LUP := if negb (refresh_jac =? 0)%Z && store_LU then lu_or_reset J else LUP in
            r <- n_fun F xn ;;
            res2 <- lift (dot r r) ;;
            let incr1 := la_norminf direction in
            let conv := incr1 <?. o_dx_delta opts in
            ret (inl (NState xn xn r res2 J LUP
                        (if conv then true else ns_term s) (if conv then SUCCESS else ns_conv s)
                        (ns_iters s + 1) prints))
        end.

      (** newton.hpp:366-544, the body of newton_iterate_impl.  [L], [U] and [P] start uninitialised ([junk]).  The loop runs at most
          [maxit] times. *)
      Definition newton_impl (x : list T) (opts : options T) (stats : status T) : M St (list T * status T * nat) :=
        let N := length x in
        r <- n_fun F x ;;
        res2 <- lift (dot r r) ;;
        J <- n_jac F x ;;
        let uninit := mtab N N (fun _ _ => junk) in
        let LUP := if store_LU then lu_or_reset J else (uninit, uninit, uninit) in
        z <- while (fun s => negb (ns_term s) && (ns_iters s <? o_maxit opts)%Z) (newton_body x opts stats)
               (Z.to_nat (o_maxit opts))
               (NState x x r res2 J LUP false SUCCESS 0 0) ;;
        match z with
        | inr out => ret out
        | inl s =>
            let conv := if (ns_iters s =? o_maxit opts)%Z then MAXIT_EXCEEDED else ns_conv s in
            let res := ssqrt (ns_res2 s) in
            let conv := if negb (sfinite res) then GENERIC_ERROR else conv in
            let prints := if quiet then ns_prints s else Datatypes.S (ns_prints s) in
            ret (if (conv =? SUCCESS)%Z then ns_xn s else x, Status conv res (ns_iters s) (sZ 1), prints)
        end.
    End Impl.

    (** newton.hpp:362-365, newton_iterate_impl with its template parameters in order *)
    Definition newton_iterate_impl (refresh_jac : Z) (precondition time_internals limit_step quiet : bool) :=
      newton_impl refresh_jac precondition limit_step quiet.

    (** newton.hpp:557-671, newton_iterate: the dispatch on the option bits *)
    Definition newton_iterate (x : list T) (opts : options T) (stats : status T) (quiet : bool) : M St (list T * status T * nat) :=
      let bit (b : bool) (k : nat) : nat := if b then k else 0 in
      let option_bits := bit (o_refresh_jac opts >? 0)%Z 1 + bit (o_precondition opts) 2 + bit (o_time_internals opts) 4
                         + bit (o_limit_step opts) 8 + bit quiet 16 in
      match option_bits with
      | 0 => newton_iterate_impl 0 false false false false x opts stats
      | 1 => newton_iterate_impl 1 false false false false x opts stats
      | 2 => newton_iterate_impl 0 true false false false x opts stats
      | 3 => newton_iterate_impl 1 true false false false x opts stats
      | 4 => newton_iterate_impl 0 false true false false x opts stats
      | 5 => newton_iterate_impl 1 false true false false x opts stats
      | 6 => newton_iterate_impl 0 true true false false x opts stats
      | 7 => newton_iterate_impl 1 true true false false x opts stats
      | 8 => newton_iterate_impl 0 false false true false x opts stats
      | 9 => newton_iterate_impl 1 false false true false x opts stats
      | 10 => newton_iterate_impl 0 true false true false x opts stats
      | 11 => newton_iterate_impl 1 true false true false x opts stats
      | 12 => newton_iterate_impl 0 false true true false x opts stats
      | 13 => newton_iterate_impl 1 false true true false x opts stats
      | 14 => newton_iterate_impl 0 true true true false x opts stats
      | 15 => newton_iterate_impl 1 true true true false x opts stats
      | 16 => newton_iterate_impl 0 false false false true x opts stats
      | 17 => newton_iterate_impl 1 false false false true x opts stats
      | 18 => newton_iterate_impl 0 true false false true x opts stats
      | 19 => newton_iterate_impl 1 true false false true x opts stats
      | 20 => newton_iterate_impl 0 false true false true x opts stats
      | 21 => newton_iterate_impl 1 false true false true x opts stats
      | 22 => newton_iterate_impl 0 true true false true x opts stats
      | 23 => newton_iterate_impl 1 true true false true x opts stats
      | 24 => newton_iterate_impl 0 false false true true x opts stats
      | 25 => newton_iterate_impl 1 false false true true x opts stats
      | 26 => newton_iterate_impl 0 true false true true x opts stats
      | 27 => newton_iterate_impl 1 true false true true x opts stats
      | 28 => newton_iterate_impl 0 false true true true x opts stats
      | 29 => newton_iterate_impl 1 false true true true x opts stats
      | 30 => newton_iterate_impl 0 true true true true x opts stats
      | 31 => newton_iterate_impl 1 true true true true x opts stats
      | _ => newton_iterate_impl 0 false false false false x opts stats
      end.
  End System.
End Newton.
