(** Concrete runs of the explicit integrator: used only beside the property theorems, to show that their hypotheses are
    met by non-trivial runs. *)
From Coq Require Import Reals Lra.
From Verif Require Import Model.Base Model.Scalar Model.LinAlg Model.Enums Model.Options Model.Coeffs Model.ErkCoeffs Model.Erk.
From Verif Require Import Spec.Sums Spec.Observe Spec.ErkSpec Spec.Methods.
From Verif Require Import Proofs.SumsProofs Proofs.NaiveInstance Proofs.ExactInstance Proofs.ErkTotal Proofs.ErkBounded.

(** ** binary64 *)
Section F64.
  Local Open Scope sc_scope.
  (** some [pow]: enough for a run *)
  Definition ex_pow (x y : f64) : f64 := match x with BinarySingleNaN.B754_nan => x | _ => x end.
  Definition ex_S : Scalar f64 := F64Scalar ex_pow.
  Definition ex_LA : LinAlg f64 := naive_LA f64 ex_S.
  Definition ex_E (nd : bool) : Env f64 := {| ndebug := nd; junk := f64_lit 0 0; clock := f64_lit 1 0 |}.
  #[local] Existing Instance ex_S.
  (** the oscillator (y1,y2)' = (y2,-25 y1) *)
  Definition ex_osc : functor f64 unit :=
    pure_functor (fun t y => match y with [a; b] => [b; -. (sZ 25 *. a)] | _ => y end) (fun _ _ => mtab 0 0 (fun _ _ => sZ 0)).
  Definition ex_opts (adaptive : bool) (max_steps : Z) : erk_options f64 := ErkOptions adaptive (slit 1 (-4)) (slit 1 (-3)) (sZ 0) max_steps.
  Definition ex_run (nd adaptive : bool) (max_steps : Z) (m : Z) (oo : output_options) :=
    @erk_odeint f64 ex_S ex_LA (ex_E nd) _ 50 (logged ex_osc) (sZ 0) (sZ 1) [sZ 1; sZ 0] (ex_opts adaptive max_steps) oo m (slit 5 (-1)) (World (tt, []) []).
  Definition ex_file : output_options := OutputOptions WRITE_TO_FILE 1 (Some 1%nat).
  (** (status, attempts, rejections, calls counted, entries recorded, file lines) *)
  Definition ex_summary (r : world f64 (unit * list (call f64)) * res (erk_output f64)) : option (Z * nat * nat * nat * nat * nat) :=
    match r with
    | (w, Ok s) => Some (eo_status s, eo_attempt s, eo_reject_err s, eo_fun_evals s, length (eo_t_vals s), length (w_out w))
    | _ => None
    end.
  Lemma ex_success : ex_summary (ex_run false true (-1) CASH_KARP_54 ex_file) = Some (SUCCESS, 19, 6, 114, 14, 19)%nat.
  Proof. vm_compute. reflexivity. Qed.
  Lemma ex_limit : ex_summary (ex_run false true 2 DORMAND_PRINCE_54 ex_file) = Some (ERROR_MAX_STEPS_EXCEEDED, 5, 1, 25, 4, 4)%nat.
  Proof. vm_compute. reflexivity. Qed.
  Lemma ex_summary_ok r x : ex_summary r = Some x -> exists w s, r = (w, Ok s) /\ x = (eo_status s, eo_attempt s, eo_reject_err s, eo_fun_evals s, length (eo_t_vals s), length (w_out w)).
  Proof. destruct r as [w [s|]]; [|discriminate]. intros [= <-]. eauto. Qed.
End F64.

(** ** the reals *)
Section RealRuns.
  Local Open Scope R_scope.
  Definition exr_E (nd : bool) : Env R := {| ndebug := nd; junk := 0; clock := 1 |}.
  Definition exr_fun (f : R -> list R -> list R) : functor R unit := pure_functor f (fun _ _ => mtab 0 0 (fun _ _ => 0)).
  Lemma exr_total f : total_fun (exr_fun f) f.
  Proof. intros t y s. reflexivity. Qed.
  Lemma exr_computes f : computes (exr_fun f) f.
  Proof. intros t y s v [= <-]. reflexivity. Qed.
  Definition exr_opts (adaptive : bool) : erk_options R := ErkOptions adaptive (1 / 10) (1 / 10) 0 (-1).

  (** a fixed-step run of every method, for every right-hand side that keeps the dimension *)
  Lemma exr_fixed nd f m y0 : In m explicit_methods -> preserves_dim f (length y0) ->
    exists fuel w' sol, @erk_odeint R RScalar exact_LA (exr_E nd) _ fuel (exr_fun f) 0 1 y0 (exr_opts false) output_options_default m (1 / 4) (World tt []) = (w', Ok sol).
  Proof.
    intros Hm Hf. apply erk_fixed_halts; try assumption; try lra.
    - exact (total_returns _ _ _ (exr_total f) Hf).
    - discriminate.
    - left. reflexivity.
  Qed.
  (** an adaptive run of every method with an error estimate, for every bounded right-hand side *)
  Lemma exr_adaptive nd f B m y0 : In m explicit_embedded -> y0 <> [] -> preserves_dim f (length y0) -> (forall t y q, length y = length y0 -> Rabs (ventry (f t y) q) <= B) ->
    exists fuel w' sol, @erk_odeint R RScalar exact_LA (exr_E nd) _ fuel (exr_fun f) 0 1 y0 (exr_opts true) output_options_default m (1 / 4) (World tt []) = (w', Ok sol).
  Proof.
    intros Hm Hy Hf HB. apply (erk_bounded_halts (X := exact_LA_products) (exr_fun f) f) with (B := B); simpl; auto; try lra.
    apply exr_total.
  Qed.
End RealRuns.
