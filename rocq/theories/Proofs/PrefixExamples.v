(** Concrete runs beside C118-C121. *)
From Coq Require Import Reals Lra.
From Flocq Require Import IEEE754.BinarySingleNaN Core.
From Verif Require Import Model.Base Model.Scalar Model.LinAlg Model.Newton Model.Enums Model.Options Model.Coeffs Model.ErkCoeffs Model.Erk Model.Irk Model.Multistep.
From Verif Require Import Spec.Sums Spec.Observe Spec.RkSpec Spec.ErkSpec Spec.Methods Spec.Prefix.
From Verif Require Import Proofs.SumsProofs Proofs.NaiveInstance Proofs.ExactInstance Proofs.ErkGeneric Proofs.ErkTotal Proofs.ErkBounded Proofs.ErkExamples Proofs.IrkExamples Proofs.MultistepExamples Proofs.ErkFinal Proofs.Mesh.

Lemma pe_limits : weaker_limit 2 5 /\ weaker_limit 2 (-1).
Proof. unfold weaker_limit. lia. Qed.

Section F64.
  Local Open Scope sc_scope.
  #[local] Existing Instance ex_S.
  Definition pe_erk (n : Z) :=
    @erk_odeint f64 ex_S ex_LA (ex_E false) _ 50 (logged ex_osc) (sZ 0) (sZ 1) [sZ 1; sZ 0] (erk_limited (ex_opts true (-1)) n) ex_file DORMAND_PRINCE_54 (slit 5 (-1)) (World (tt, []) []).
  Definition pe_irk (n : Z) :=
    @irk_odeint f64 ex_S ig_LA (ex_E false) _ 60 (logged ig_vdp) (sZ 0) (sZ 1) [sZ 1; sZ 1] (irk_limited (ig_opts true (-1) 5 1) n) (ig_both 1) RADAU_IIA_53 (slit 5 (-1)) (World (tt, []) []).
  Lemma pe_erk_runs : ex_summary (pe_erk 2) = Some (ERROR_MAX_STEPS_EXCEEDED, 5, 1, 25, 4, 4)%nat /\ ex_summary (pe_erk 5) = Some (ERROR_MAX_STEPS_EXCEEDED, 9, 2, 49, 7, 8)%nat.
  Proof. vm_compute. split; reflexivity. Qed.
  Lemma pe_irk_runs : ig_summary (pe_irk 2) = Some (ERROR_MAX_STEPS_EXCEEDED, 12, 8, 0, 169, 52, 4, 3)%nat /\ ig_summary (pe_irk (-1)) = Some (SUCCESS, 13, 8, 0, 198, 59, 6, 5)%nat.
  Proof. vm_compute. split; reflexivity. Qed.
End F64.
Section F64m.
  Local Open Scope sc_scope.
  #[local] Existing Instance mg_S.
  Definition pe_ab (t1 : f64) := @adams_bashforth f64 mg_S mg_LA (ex_E false) _ 60 mg_sq (sZ 0) t1 [sZ 1] 3 mg_dt (World tt []).
  Definition pe_bdf (t1 : f64) := @bdf f64 mg_S mg_LA (ex_E false) _ 60 mg_sq (sZ 0) t1 [sZ 1] 2 mg_dt (World tt []).
  Definition pe_t1 : f64 := slit 1 (-5).
  Definition pe_t2 : f64 := slit 2 (-5).
  Lemma pe_ms_runs : mg_summary (pe_ab pe_t1) = Some (SUCCESS, 7, 7)%nat /\ mg_summary (pe_ab pe_t2) = Some (SUCCESS, 11, 11)%nat /\
    mg_summary (pe_bdf pe_t1) = Some (SUCCESS, 7, 7)%nat /\ mg_summary (pe_bdf pe_t2) = Some (SUCCESS, 11, 11)%nat.
  Proof. vm_compute. repeat split; reflexivity. Qed.
  Lemma ltb_later (a b c : f64) : is_finite b = true -> is_finite c = true -> Bltb b c = true -> Bltb a b = true -> Bltb a c = true.
  Proof.
    intros Fb Fc Hbc Hab. destruct (is_finite a) eqn:Fa.
    - rewrite Bltb_correct in * by assumption. destruct (Rlt_bool_spec (B2R a) (B2R b)) as [Ha|Ha]; [|discriminate]. destruct (Rlt_bool_spec (B2R b) (B2R c)) as [Hb|Hb]; [|discriminate].
      apply Rlt_bool_true. lra.
    - destruct a as [s|s| |s m e h]; try discriminate. destruct s; [|destruct b as [s|s| |s m e h]; discriminate]. destruct c as [s|s| |s m e h]; try discriminate; reflexivity.
  Qed.
  Lemma pe_facts : is_finite pe_t1 = true /\ is_finite pe_t2 = true /\ Bltb pe_t1 pe_t2 = true.
  Proof. vm_compute. repeat split; reflexivity. Qed.
  Lemma pe_later (t : f64) : (t <?. pe_t1) = true -> (t <?. pe_t2) = true.
  Proof. exact (ltb_later t pe_t1 pe_t2 (proj1 pe_facts) (proj1 (proj2 pe_facts)) (proj2 (proj2 pe_facts))). Qed.
End F64m.

(** ** the reals: a run over [0,1], one over [1,2] from its last state, and one over [0,2] *)
Section Reals.
  Local Open Scope R_scope.
  Definition pe_run (f : R -> list R -> list R) (fuel : nat) (a b : R) (y : list R) (m : Z) :=
    @erk_odeint R RScalar exact_LA (exr_E false) _ fuel (exr_fun f) a b y (exr_opts false) output_options_default m (1 / 4) (World tt []).
  Lemma pe_halts f a b y m : In m explicit_methods -> preserves_dim f (length y) -> a < b -> exists fuel w sol, pe_run f fuel a b y m = (w, Ok sol) /\ eo_status sol = SUCCESS.
  Proof.
    intros Hm Hf Hab.
    assert (H : exists fuel w sol, pe_run f fuel a b y m = (w, Ok sol)).
    { apply erk_fixed_halts; try assumption; try lra; [exact (total_returns _ _ _ (exr_total f) Hf)|discriminate|left; reflexivity]. }
    destruct H as (fuel & w & sol & Hr). exists fuel, w, sol. split; [exact Hr|].
    unfold pe_run in Hr. destruct (@erk_limit R RScalar exact_LA (exr_E false) unit (exr_fun f) _ _ _ _ _ _ _ _ _ _ _ Hr) as [(H & _)|(_ & _ & H & _)]; [exact H|]. simpl in H. lia.
  Qed.
  Lemma pe_restart f y m : In m explicit_methods -> preserves_dim f (length y) ->
    exists f1 f2 f3 w1 w2 w3 a b c,
      pe_run f f1 0 1 y m = (w1, Ok a) /\ eo_status a = SUCCESS /\
      pe_run f f2 1 2 (last (eo_y_vals a) y) m = (w2, Ok b) /\ eo_status b = SUCCESS /\
      pe_run f f3 0 2 y m = (w3, Ok c) /\ eo_status c = SUCCESS /\ 1 = 0 + INR 4 * (1 / 4).
  Proof.
    intros Hm Hf. destruct (pe_halts f 0 1 y m Hm Hf ltac:(lra)) as (f1 & w1 & a & Ra & Sa). destruct (pe_halts f 0 2 y m Hm Hf ltac:(lra)) as (f3 & w3 & c & Rc & Sc).
    assert (L : length (last (eo_y_vals a) y) = length y).
    { pose proof Ra as Ra'. unfold pe_run in Ra'. pose proof (@erk_aligned R RScalar exact_LA (exr_E false) unit (exr_fun f) _ _ _ _ _ _ _ _ _ _ _ Ra') as A. cbv zeta in A. destruct A as (H1 & H2 & _ & _ & _ & _ & _ & H3 & _).
      destruct (eo_y_vals a) as [|v l] eqn:E; [reflexivity|]. rewrite Forall_forall in H3. apply H3.
      destruct (@exists_last _ (v :: l) ltac:(discriminate)) as (u & x & ->). rewrite last_last. apply in_or_app. right. left. reflexivity. }
    destruct (pe_halts f 1 2 (last (eo_y_vals a) y) m Hm ltac:(rewrite L; exact Hf) ltac:(lra)) as (f2 & w2 & b & Rb & Sb).
    exists f1, f2, f3, w1, w2, w3, a, b, c. repeat (split; [assumption|]). simpl. lra.
  Qed.
  Lemma pe_mesh f y m : In m explicit_methods -> preserves_dim f (length y) ->
    exists f1 f3 w1 w3 a c, pe_run f f1 0 1 y m = (w1, Ok a) /\ pe_run f f3 0 2 y m = (w3, Ok c) /\
      (0 + 4 < length (eo_t_vals a))%nat /\ (0 + 4 < length (eo_t_vals c))%nat /\ nth 0 (eo_y_vals a) [] = nth 0 (eo_y_vals c) [] /\
      forall l, (l <= 4)%nat -> nth (0 + l) (eo_t_vals a) 0 = nth (0 + l) (eo_t_vals c) 0.
  Proof.
    intros Hm Hf. destruct (pe_restart f y m Hm Hf) as (f1 & f2 & f3 & w1 & w2 & w3 & a & b & c & Ra & Sa & Rb & Sb & Rc & Sc & He).
    exists f1, f3, w1, w3, a, c. split; [exact Ra|]. split; [exact Rc|].
    assert (K := @restart (exr_E false) (exr_E false) (exr_E false) exact_LA exact_LA exact_LA exact_LA_products exact_LA_products exact_LA_products unit unit unit (exr_fun f) (exr_fun f) (exr_fun f) f
      (exr_computes f) (exr_computes f) (exr_computes f) m (1 / 4) 0 1 2 4 (exr_opts false) (exr_opts false) (exr_opts false) Hm ltac:(lra) He ltac:(lia) ltac:(lra)
      (or_introl (conj eq_refl (conj eq_refl eq_refl))) y f1 f2 f3 _ _ _ _ _ _ _ _ _ a b c Ra Sa Rb Sb Rc Sc).
    destruct K as (-> & -> & _). unfold pe_run in Ra.
    destruct (@erk_fixed_grid (exr_E false) exact_LA unit (exr_fun f) 0 1 y (exr_opts false) output_options_default m (1 / 4) Hm ltac:(lra) ltac:(lra) (or_introl eq_refl) _ _ _ _ Ra) as (_ & Ga).
    destruct (Ga Sa) as (N & HN & HB & HT). assert (N = 4%nat) by (apply (grid_count 4 N (1 / 4) (1 - 0)); [lra|exact HN|simpl; lra|exact HB]). subst N.
    assert (L : length (eo_t_vals a) = 5%nat) by (rewrite HT; reflexivity).
    pose proof (@erk_aligned R RScalar exact_LA (exr_E false) unit (exr_fun f) _ _ _ _ _ _ _ _ _ _ _ Ra) as A. cbv zeta in A. destruct A as (_ & L2 & _).
    split; [lia|]. split; [rewrite app_length; lia|]. split; [rewrite app_nth1 by lia; reflexivity|]. intros l Hl. rewrite app_nth1 by lia. reflexivity.
  Qed.
End Reals.
