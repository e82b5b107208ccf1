(** irk::odeint reaches its main loop for the methods it can run. *)
From Coq Require Import Reals Lra.
From Verif Require Import Model.Base Model.Scalar Model.LinAlg Model.Newton Model.Enums Model.Options Model.Coeffs Model.Irk Model.IrkCoeffs.
From Verif Require Import Spec.Sums Spec.Trees Spec.RkSpec Spec.Observe Spec.ErkSpec Spec.NewtonSpec Spec.IrkSpec Spec.Methods Spec.IrkTotalSpec.
From Verif Require Import Proofs.LoopProofs Proofs.SumsProofs Proofs.OrderProofs Proofs.TablesGeneric Proofs.ErkProofs Proofs.ErkReal Proofs.ErkTimes Proofs.NewtonProofs Proofs.NewtonTotal Proofs.RVec
  Proofs.IrkProofs Proofs.IrkReal Proofs.IrkStages Proofs.IrkRun Proofs.IrkGeneric Proofs.IrkResults Proofs.IrkSteps Proofs.IrkTimes Proofs.IrkTotal Proofs.IrkInverse.

Lemma runnable_facts m : In m implicit_runnable -> In m implicit_methods /\ has_orders m = true /\ has_b2 m = true.
Proof.
  unfold implicit_runnable. cbn [In]. intros Hi. destruct Hi as [<-|[<-|[<-|[<-|[<-|[<-|[<-|[]]]]]]]]; (split; [|split; reflexivity]); unfold implicit_methods; cbn; tauto.
Qed.
Section Start.
  Context {T : Type} `{Scalar T} `{LinAlg T} `{Env T} {St : Type}.
  Local Notation W := (world T St).
  Variables (F : functor T St) (t0 t1 : T) (y0 : list T) (opts : irk_options T) (oo : output_options) (dt : T).

  Lemma start_run m sc nopts Ai : ndebug = false -> In m implicit_runnable -> irk_table (T := T) m = Ok sc -> inv (sc_A sc) = Ok Ai -> io_newton opts = Some nopts ->
    (clip t1 t0 dt >?. sZ 0)%sc = true ->
    exists mo dw d2w, irk_started t0 t1 opts m dt sc nopts mo dw d2w /\
      forall fuel (w : W), irk_odeint fuel F t0 t1 y0 opts oo m dt w =
        (r <- while (fun s => is_t s <?. t1)%sc (irk_body F t1 opts sc oo nopts mo dw d2w) fuel (irk_init t0 y0 (length (sc_b sc)) nopts (clip t1 t0 dt)) ;; ret (final r))%mon w.
  Proof.
    intros Hdeb Hm Ht Hinv Hn Hdt. destruct (runnable_facts m Hm) as (Hi & Hor & Hb2).
    destruct (irk_get_ok (T := T) m) as (sc' & Hg & Ht' & Hd). rewrite Ht in Ht'. injection Ht' as <-.
    destruct (irk_table_fields m sc Ht Hi) as [Lb2 Ho]. rewrite Hor in Ho. rewrite Hb2 in Lb2. destruct Ho as [Ho1 Ho2].
    destruct (sc_order sc) as [a|] eqn:E1; [|contradiction]. destruct (sc_order2 sc) as [b|] eqn:E2; [|contradiction].
    destruct (dims_of sc _ Hd) as (L1 & L2 & L3 & L4 & L5). pose proof (proj2 (irk_stages_pos m) Hi) as Hs.
    destruct (inv_inv _ _ Hinv) as (Esq & g & _ & EAi).
    assert (Ec : ncols (transpose (sZ 0) Ai) = length (sc_b sc)). { rewrite EAi. unfold transpose. rewrite mtab_ncols, mtab_nrows. congruence. }
    destruct (mv_len (transpose (sZ 0) Ai) (sc_b sc) (eq_sym Ec)) as (dw & Ed & _).
    destruct (mv_len (transpose (sZ 0) Ai) (sc_b2 sc) (eq_trans Lb2 (eq_sym Ec))) as (d2w & Ed2 & _).
    exists (Z.min a b mod 2 ^ 64)%Z, dw, d2w. split.
    - constructor; try assumption. + intros _; exact Hdt. + exists a, b. auto. + exists Ai. auto.
    - intros fuel w.
      assert (Er : forall A B (x : res A) a (k : A -> M W B) v, x = Ok a -> bind (lift x) k v = k a v) by (intros A B x a' k v ->; reflexivity).
      assert (Ea : forall B c (k : unit -> M W B) v, c = true -> bind (assert_ ndebug c) k v = k tt v).
      { intros B c k v E. unfold bind, assert_. rewrite E, Hdeb. reflexivity. }
      assert (Eo : (if io_adaptive opts && (length (sc_b2 sc) =? 0)%nat
                then IrkOptions false (io_rel_tol opts) (io_abs_tol opts) (io_max_dt opts) (io_max_steps opts) (io_newton opts) else opts) = opts).
      { rewrite Lb2, L1. destruct (irk_stages m); [lia|]. rewrite andb_false_r. reflexivity. }
      unfold irk_odeint. rewrite (Er _ _ _ sc _ _ Hg). rewrite (irk_verify_dims sc _ Hd). rewrite Ea by (destruct (irk_stages m); [lia|reflexivity]). rewrite Eo.
      unfold irk_guts. fold (clip t1 t0 dt). rewrite Hn. rewrite Ea by reflexivity. rewrite Ea by exact Hdt. rewrite (Er _ _ _ nopts _ _ eq_refl). rewrite E1, E2.
      rewrite !(Er _ _ _ _ _ _ eq_refl). rewrite (Er _ _ _ Ai _ _ Hinv), (Er _ _ _ dw _ _ Ed), (Er _ _ _ d2w _ _ Ed2).
      unfold bind, irk_init. destruct (while _ _ _ _ _) as [w1 [r|e]]; [|reflexivity]. destruct r; reflexivity.
  Qed.
End Start.

Section Real.
  Context {LA : LinAlg R} {HP : ExactProducts LA} {HX : ExactSolve LA} {HLU : ExactLU LA} {HI : ExactInverse LA} {HE : Env R} {St : Type}.
  Local Notation W := (world R St).
  Local Open Scope R_scope.

  Lemma start_run_R (F : functor R St) t0 t1 y0 opts oo m dt nopts : ndebug = false -> In m implicit_runnable -> io_newton opts = Some nopts -> 0 < dt -> t0 < t1 ->
    exists sc mo dw d2w, irk_table (T := R) m = Ok sc /\ irk_started t0 t1 opts m dt sc nopts mo dw d2w /\
      forall fuel (w : W), irk_odeint fuel F t0 t1 y0 opts oo m dt w =
        (r <- while (fun s => is_t s <?. t1)%sc (irk_body F t1 opts sc oo nopts mo dw d2w) fuel (irk_init t0 y0 (length (sc_b sc)) nopts (clip t1 t0 dt)) ;; ret (final r))%mon w.
  Proof.
    intros Hdeb Hm Hn Hdt Ht. destruct (irk_get_ok (T := R) m) as (sc & Hg & Htab & Hd). pose proof (runnable_invertible m sc Hm Htab) as Hinv.
    assert (EA : exists Ai, inv (sc_A sc) = Ok Ai).
    { unfold inv. destruct Hinv as (B & E & HB). assert (Hi : invertible (sc_A sc)) by (exists B; split; assumption). rewrite E, Nat.eqb_refl. pose proof (exact_inv_total _ Hi). destruct (la_inv (sc_A sc)); [eauto|contradiction]. }
    destruct EA as (Ai & EA).
    assert (Hcl : (clip t1 t0 dt >?. sZ 0)%sc = true).
    { rewrite clip_R. unfold sZ. simpl. unfold Rltb, Rlit. destruct (Rlt_dec 0 (Rmin dt (t1 - t0))) as [|N]; [reflexivity|]. exfalso. apply N. apply Rmin_glb_lt; lra. }
    destruct (start_run F t0 t1 y0 opts oo dt m sc nopts Ai Hdeb Hm Htab EA Hn Hcl) as (mo & dw & d2w & P1 & P2). exists sc, mo, dw, d2w. auto.
  Qed.
End Real.
