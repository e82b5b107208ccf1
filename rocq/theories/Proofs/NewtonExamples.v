(** Concrete runs of the root finders, used only beside the property theorems. *)
From Coq Require Import Reals Lra.
From Verif Require Import Model.Base Model.Scalar Model.LinAlg Model.Newton Spec.Sums Spec.ErkSpec Spec.NewtonSpec
  Proofs.SumsProofs Proofs.RVec Proofs.NaiveInstance Proofs.ErkExamples Proofs.ChoiceInstance.

Section F64.
  Local Open Scope sc_scope.
  #[local] Existing Instance ex_S.
  Definition ng_LA : LinAlg f64 := gauss_LA.
  #[local] Existing Instance ng_LA.
  Definition ng_E (j : f64) : Env f64 := {| ndebug := false; junk := j; clock := f64_lit 1 0 |}.
  (** the intersections of a circle and a hyperbola: x^2 + y^2 = 5, x y = 2 *)
  Definition ng_sys : nfunctor f64 unit := pure_system
    (fun x => match x with [a; b] => [a *. a +. b *. b -. sZ 5; a *. b -. sZ 2] | _ => x end)
    (fun x => match x with [a; b] => mtab 2 2 (fun i j => match i, j with O, O => sZ 2 *. a | O, _ => sZ 2 *. b | _, O => b | _, _ => a end) | _ => mat_empty end).
  Definition ng_opts (maxit refresh : Z) (pre lim : bool) : options f64 := Options (slit 1 (-8)) (slit 1 (-6)) maxit false (slit 5 (-1)) refresh pre lim.
  Definition ng_run (opts : options f64) := @newton_iterate f64 ex_S ng_LA (ng_E (sZ 0)) _ (nlogged ng_sys) [sZ 3; slit 5 (-1)] opts status_default true (tt, []).
  Definition ng_broyden (opts : options f64) := @broyden_iterate f64 ex_S ng_LA _ (nlogged ng_sys) [sZ 3; slit 5 (-1)] opts status_default true (tt, []).
  (** (status, iterations, calls of fun, calls of jac, result changed) *)
  Definition ng_summary (r : (unit * list (ncall f64)) * res (list f64 * status f64 * nat)) : option (Z * Z * nat * nat * bool) :=
    match r with
    | (w, Ok (x, st, _)) => Some (st_conv st, st_iters st, count_nfun (snd w), count_njac (snd w),
                                  match x with a :: _ => negb (a ==?. sZ 3) | [] => false end)
    | _ => None
    end.
  Lemma ng_summary_ok r c i f j b : ng_summary r = Some (c, i, f, j, b) ->
    exists w x st pr, r = (w, Ok (x, st, pr)) /\ st_conv st = c /\ st_iters st = i /\ count_nfun (snd w) = f /\ count_njac (snd w) = j.
  Proof. destruct r as [w [[[x st] pr]|]]; [|discriminate]. intros [= <- <- <- <- _]. exists w, x, st, pr. auto. Qed.
  Lemma ng_ok : ng_summary (ng_run (ng_opts 50 10 false false)) = Some (SUCCESS, 6%Z, 7, 7, true).
  Proof. vm_compute. reflexivity. Qed.
  Lemma ng_frozen : ng_summary (ng_run (ng_opts 50 0 false false)) = Some (SUCCESS, 25%Z, 26, 1, true).
  Proof. vm_compute. reflexivity. Qed.
  Lemma ng_pre : ng_summary (ng_run (ng_opts 50 1 true false)) = Some (SUCCESS, 6%Z, 7, 7, true).
  Proof. vm_compute. reflexivity. Qed.
  Lemma ng_lim : ng_summary (ng_run (ng_opts 50 1 true true)) = Some (SUCCESS, 16%Z, 17, 17, true).
  Proof. vm_compute. reflexivity. Qed.
  Lemma ng_max : ng_summary (ng_run (ng_opts 3 1 true true)) = Some (MAXIT_EXCEEDED, 3%Z, 4, 4, false).
  Proof. vm_compute. reflexivity. Qed.
  Lemma ng_bmax : ng_summary (ng_broyden (ng_opts 3 1 true true)) = Some (SUCCESS, 3%Z, 3, 0, true).
  Proof. vm_compute. reflexivity. Qed.
  Lemma ng_bok : ng_summary (ng_broyden (ng_opts 200 1 true true)) = Some (SUCCESS, 10%Z, 10, 0, true).
  Proof. vm_compute. reflexivity. Qed.
  (** x - (1,1) with the preconditioner and different contents of uninitialised memory *)
  Definition ng_id : nfunctor f64 unit := pure_system
    (fun x => map (fun a => a -. sZ 1) x) (fun x => eye (length x)).
  Definition ng_run_id (j : f64) := @newton_iterate f64 ex_S ng_LA (ng_E j) _ (nlogged ng_id) [sZ 3; sZ 0] (ng_opts 50 1 true false) status_default true (tt, []).
  Lemma ng_id0 : ng_summary (ng_run_id (sZ 0)) = Some (SUCCESS, 6%Z, 7, 7, true).
  Proof. vm_compute. reflexivity. Qed.
  Lemma ng_id1 : ng_summary (ng_run_id (sZ 1)) = Some (GENERIC_ERROR, 0%Z, 1, 1, false).
  Proof. vm_compute. reflexivity. Qed.
End F64.

Section RealRuns.
  Local Open Scope R_scope.
  Definition nr_E (j : R) : Env R := {| ndebug := false; junk := j; clock := 1 |}.
  (** 2x + y = 3, x + 3y = 5 *)
  Definition nr_M : mat R := mtab 2 2 (fun i j => match i, j with O, O => 2 | 1%nat, 1%nat => 3 | _, _ => 1 end).
  Definition nr_b : list R := [3; 5].
  Definition nr_sys : nfunctor R unit := pure_system
    (fun x => vtab 2 (fun i => Rsum 2 (fun j => mentry nr_M i j * ventry x j) - ventry nr_b i)) (fun _ => nr_M).
  Lemma nr_linear : linear_system nr_sys nr_M nr_b.
  Proof.
    split.
    - intros x s Hx. do 2 eexists. split; [reflexivity|]. split; [reflexivity|]. intros i Hi. change (nrows nr_M) with 2%nat in * .
      rewrite ventry_vt by exact Hi. reflexivity.
    - intros x s Hx. eexists. reflexivity.
  Qed.
  Lemma nr_wf : mat_wf nr_M. Proof. apply mtab_wf. Qed.
  Lemma nr_inv : invertible nr_M.
  Proof.
    exists (mtab 2 2 (fun i j => match i, j with O, O => 3/5 | 1%nat, 1%nat => 2/5 | _, _ => -1/5 end)).
    do 3 (split; [reflexivity|]). change (nrows nr_M) with 2%nat.
    intros i j Hi Hj. destruct i as [|[|]]; [| |lia]; (destruct j as [|[|]]; [| |lia]); unfold mentry, delta; simpl; split; lra.
  Qed.
  Definition nr_opts (m : R) (maxit refresh : Z) (pre lim : bool) : options R := Options (1/10) (1/10) maxit false m refresh pre lim.
  (** a system of one equation that keeps its dimension: x + 1 *)
  Definition nr_one : nfunctor R unit := pure_system (fun x => map (fun a => a + 1) x) (fun x => mtab (length x) (length x) (fun i j => if (i =? j)%nat then 1 else 0)).
End RealRuns.
