(** Property theorems about timings (C69), in exact arithmetic. *)
From Coq Require Import Reals Lra.
From Verif Require Import Model.Base Model.Scalar Model.LinAlg Model.Timer Spec.SmallSpecs Proofs.TimerProofs.
Local Open Scope R_scope.

(** C69.  The reported time is the difference of the clock readings (in microseconds: [micros]) divided by 1000. *)
Theorem C69_elapsed_is_milliseconds :
  forall out t0 t1,
  toc out t0 t1 = (IZR (micros t1 - micros t0) / 1000,
                   if out then Some (IZR (micros t1 - micros t0) / 1000, IZR (micros t1 - micros t0) / 1000000)
                   else None) :> R * option (R * R).
Proof. exact toc_spec. Qed.
Print Assumptions C69_elapsed_is_milliseconds.

Theorem C69_elapsed_additive :
  forall t0 t1 t2, get_elapsed t0 t1 + get_elapsed t1 t2 = get_elapsed t0 t2 :> R.
Proof. exact elapsed_add. Qed.
Print Assumptions C69_elapsed_additive.

(** The report: percentages do not depend on the unit, but above one second the factor that should turn
    milliseconds into seconds (1/1000) is 1/10000. *)
Theorem C69_breakdown_seconds_off_by_ten :
  forall ts, (6 <= length ts)%nat -> total ts <> 0 ->
  let k := if Rlt_dec 1000 (total ts) then /10000 else 1 in
  print_timing_breakdown ts =
  Ok (if Rlt_dec 1000 (total ts) then true else false,
      (k * total ts, 100) :: map (fun i => (k * nth i ts 0, 100 * nth i ts 0 / total ts)) (seq 0 6)).
Proof. exact breakdown_spec. Qed.
Print Assumptions C69_breakdown_seconds_off_by_ten.

Theorem C69_breakdown_short_vector_ub :
  forall ts : list R, (length ts < 6)%nat -> print_timing_breakdown ts = Err EUB.
Proof. exact breakdown_short. Qed.
Print Assumptions C69_breakdown_short_vector_ub.

Example C69_example :
  (6 <= length [2000; 0; 0; 0; 0; 0])%nat /\ total [2000; 0; 0; 0; 0; 0] = 2000 /\
  get_elapsed (Timeval 1 999999) (Timeval 2 1) = 2 / 1000 :> R.
Proof.
  split; [simpl; lia|]. split; [unfold total; simpl; lra|].
  rewrite elapsed_ms. unfold micros; simpl. lra.
Qed.
