(** my_timer.hpp and the timing report of irk.hpp. *)
From Verif Require Import Model.Base Model.Scalar Model.LinAlg.
Local Open Scope sc_scope.
Local Open Scope mon_scope.

(** struct timeval, as filled by gettimeofday *)
Record timeval := Timeval { tv_sec : Z; tv_usec : Z }.

Section Timer.
  Context {T : Type} `{Scalar T}.

  (** my_timer.hpp:142-149, get_elapsed: milliseconds between the stored tic and the clock reading [now] *)
  Definition get_elapsed (user_tic now : timeval) : T :=
    sZ (tv_usec now - tv_usec user_tic) *. slit 1 (-3)
    +. sZ (tv_sec now - tv_sec user_tic) *. slit 1000 0.

  (** my_timer.hpp:76-92, toc: returns milliseconds and, if output is enabled, prints milliseconds and seconds.
      Result: returned value, printed pair. *)
  Definition toc (out : bool) (t_tic now : timeval) : T * option (T * T) :=
    let diff_msec := get_elapsed t_tic now in
    let diff_sec := diff_msec *. slit 1 (-3) in
    (diff_msec, if out then Some (diff_msec, diff_sec) else None).

  (** irk.hpp:328-360, print_timing_breakdown: printed unit (true: seconds), and the printed lines
      (time, percentage): total first, then timings 0..5.  [timings[i]] beyond the vector is UB. *)
  Definition timing_line (t total : T) : T * T := (t, slit 1000 (-1) *. t /. total).
  Definition print_timing_breakdown (timings : list T) : res (bool * list (T * T)) :=
    let total_t := fold_left sadd timings (slit 0 0) in
    let secs := total_t >?. sZ 1000 in
    let time_scale := if secs then slit 1 (-4) else slit 10 (-1) in
    let total_t := total_t *. time_scale in
    if (6 <=? length timings)%nat then
      Ok (secs, timing_line total_t total_t
                :: map (fun i => timing_line (time_scale *. nth i timings (sZ 0)) total_t) (seq 0 6))
    else Err EUB.
End Timer.
