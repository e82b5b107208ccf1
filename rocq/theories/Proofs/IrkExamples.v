(** Concrete runs of the implicit integrator: used only beside the property theorems, to show that their hypotheses are
    met by non-trivial runs. *)
From Coq Require Import Reals Lra.
From Verif Require Import Model.Base Model.Scalar Model.LinAlg Model.Newton Model.Enums Model.Options Model.Coeffs Model.IrkCoeffs Model.Irk.
From Verif Require Import Spec.Sums Spec.Observe Spec.ErkSpec Spec.NewtonSpec Spec.IrkSpec.
From Verif Require Import Proofs.SumsProofs Proofs.NaiveInstance Proofs.ErkExamples.

(** ** binary64 *)
Section F64.
  Local Open Scope sc_scope.
  #[local] Existing Instance ex_S.
  Definition ig_LA : LinAlg f64 := gauss_LA.
  (** van der Pol's equation *)
  Definition ig_vdp : functor f64 unit :=
    pure_functor (fun t y => match y with [a; b] => [b; sZ 5 *. (sZ 1 -. a *. a) *. b -. a] | _ => y end)
      (fun t y => match y with [a; b] => Mat 2 [[sZ 0; -. (sZ 10 *. a *. b) -. sZ 1]; [sZ 1; sZ 5 *. (sZ 1 -. a *. a)]] | _ => mat_empty end).
  Definition ig_newton (maxit refresh : Z) : options f64 := Options (slit 1 (-6)) (slit 1 (-8)) maxit false (slit 1 0) refresh false false.
  Definition ig_opts (adaptive : bool) (max_steps maxit refresh : Z) : irk_options f64 :=
    IrkOptions adaptive (slit 1 (-3)) (slit 1 (-3)) (sZ 0) max_steps (Some (ig_newton maxit refresh)).
  Definition ig_run (nd adaptive : bool) (max_steps maxit refresh : Z) (m : Z) (oo : output_options) :=
    @irk_odeint f64 ex_S ig_LA (ex_E nd) _ 60 (logged ig_vdp) (sZ 0) (sZ 1) [sZ 1; sZ 1] (ig_opts adaptive max_steps maxit refresh) oo m (slit 5 (-1)) (World (tt, []) []).
  (** (status, attempts, rejections by Newton and by the error, fun_evals, jac_evals, entries recorded, file lines) *)
  Definition ig_summary (r : world f64 (unit * list (call f64)) * res (irk_output f64)) : option (Z * nat * nat * nat * nat * nat * nat * nat) :=
    match r with
    | (w, Ok s) => let c := io_count s in Some (io_status s, ct_attempt c, ct_reject_newton c, ct_reject_err c, ct_fun_evals c, ct_jac_evals c, length (io_t_vals s), length (w_out w))
    | _ => None
    end.
  (** store in vectors and write to a file, every [k]-th accepted step *)
  Definition ig_both (k : Z) : output_options := OutputOptions (N.lor STORE_IN_VECTORS WRITE_TO_FILE) k (Some 1%nat).
  Lemma ig_runs :
    ig_summary (ig_run false true (-1) 5 1 RADAU_IIA_53 (ig_both 1)) = Some (SUCCESS, 13, 8, 0, 198, 59, 6, 5)%nat /\
    ig_summary (ig_run false true (-1) 5 3 RADAU_IIA_53 (ig_both 1)) = Some (SUCCESS, 13, 8, 0, 198, 25, 6, 5)%nat /\
    ig_summary (ig_run false true (-1) 5 1 RADAU_IIA_32 (ig_both 2)) = Some (SUCCESS, 37, 4, 1, 273, 86, 17, 16)%nat /\
    ig_summary (ig_run false true 2 5 2 LOBATTO_IIIC_43 (ig_both 1)) = Some (ERROR_MAX_STEPS_EXCEEDED, 11, 6, 1, 150, 26, 4, 3)%nat /\
    ig_summary (ig_run false false 2 2 2 LOBATTO_IIIC_43 (ig_both 1)) = Some (GENERAL_ERROR, 1, 0, 0, 6, 1, 1, 0)%nat.
  Proof. vm_compute. repeat split. Qed.
  Lemma ig_refresh_zero : snd (ig_run false true (-1) 5 0 RADAU_IIA_53 (ig_both 1)) = Err EUB.
  Proof. vm_compute. reflexivity. Qed.
  Lemma ig_maxit_one : snd (ig_run false true (-1) 1 1 RADAU_IIA_53 (ig_both 1)) = Err EFuel /\
    ig_summary (ig_run false false (-1) 1 1 RADAU_IIA_53 (ig_both 1)) = Some (GENERAL_ERROR, 1, 0, 0, 3, 1, 1, 0)%nat.
  Proof. vm_compute. repeat split. Qed.
  Lemma ig_interval_zero : snd (ig_run false true (-1) 5 1 RADAU_IIA_53 (ig_both 0)) = Err EUB.
  Proof. vm_compute. reflexivity. Qed.
  (** with NDEBUG, and without adaptivity, the first Newton iteration respectively the first solved step throws *)
  Lemma ig_throws : snd (ig_run true true (-1) 5 1 RADAU_IIA_53 (ig_both 1)) = Err (EThrow ELogic) /\
    snd (ig_run false false (-1) 50 1 RADAU_IIA_32 (ig_both 1)) = Err (EThrow ELogic) /\
    snd (ig_run false true (-1) 5 1 IMPLICIT_EULER (ig_both 1)) = Err (EThrow ELogic) /\
    snd (ig_run false true (-1) 5 1 LOBATTO_IIIA_43 (ig_both 1)) = Err (EThrow ERuntime) /\
    snd (ig_run false true (-1) 5 1 GAUSS_LEGENDRE_42 (ig_both 1)) = Err (EThrow ERuntime) /\
    snd (ig_run false true (-1) 5 1 LOBATTO_IIIA_127 (ig_both 1)) = Err EUB /\
    snd (ig_run false true (-1) 5 1 GAUSS_LEGENDRE_147 (ig_both 1)) = Err EUB.
  Proof. vm_compute. repeat split. Qed.
  Lemma ig_summary_ok r x : ig_summary r = Some x -> exists w s, r = (w, Ok s) /\
    let c := io_count s in x = (io_status s, ct_attempt c, ct_reject_newton c, ct_reject_err c, ct_fun_evals c, ct_jac_evals c, length (io_t_vals s), length (w_out w)).
  Proof. destruct r as [w [s|]]; [|discriminate]. intros [= <-]. eauto. Qed.
  (** merging a run with another: (attempts, fun_evals, entries, status) *)
  Definition ig_merged (a b : world f64 (unit * list (call f64)) * res (irk_output f64)) : option (nat * nat * nat * Z) :=
    match snd a, snd b with
    | Ok x, Ok y => match merge_rk_output x y with Ok c => Some (ct_attempt (io_count c), ct_fun_evals (io_count c), length (io_t_vals c), io_status c) | _ => None end
    | _, _ => None
    end.
  Lemma ig_merges :
    ig_merged (ig_run false true (-1) 5 1 RADAU_IIA_53 (ig_both 1)) (ig_run false true (-1) 5 1 RADAU_IIA_32 (ig_both 2)) = Some (50, 198, 23, SUCCESS)%nat /\
    ig_merged (ig_run false true (-1) 5 1 RADAU_IIA_53 (ig_both 1)) (ig_run false true 2 5 2 LOBATTO_IIIC_43 (ig_both 1)) = None.
  Proof. vm_compute. split; reflexivity. Qed.
End F64.
