(** The statements of C84 and C85. *)
From Coq Require Import Reals Lra.
From Verif Require Import Model.Base Model.Scalar Model.LinAlg Model.Newton Model.Enums Model.Options Model.Erk Model.Irk Model.Multistep.
From Verif Require Import Spec.Observe Spec.ErkSpec Spec.LocalitySpec.
From Verif Require Import Proofs.Locality Proofs.Window.

Section Any.
  Context {T : Type} {HS : Scalar T} {HL : LinAlg T} {HE : Env T} {St : Type} (F : functor T St).
  Lemma local_all {A} (p : functor T (St * list (call T)) -> M (world T (St * list (call T))) A) (q : functor T St -> M (world T St) A) :
    (forall G, local F G (p (logged F)) (q G)) -> forall w w' r, p (logged F) w = (w', r) ->
    exists calls, snd (w_st w') = snd (w_st w) ++ calls /\ forall G, Forall (agree_at F G) calls -> q G (unlogged w) = (unlogged w', r).
  Proof.
    intros H w w' r E. destruct (H F w) as (l & H1 & _). rewrite E in H1. cbn [fst] in H1. exists l. split; [exact H1|].
    intros G Hf. destruct (H G w) as (l' & K1 & K2). rewrite E in K1, K2. cbn [fst snd] in * . rewrite H1 in K1. apply app_inv_head in K1. subst l'. exact (K2 Hf).
  Qed.
End Any.

Local Open Scope R_scope.
Section Exact.
  Context {HL : LinAlg R} {HE : Env R} {St : Type} (F : functor R St).
  Variables (fuel : nat) (t0 t1 : R) (y0 : list R) (oo : output_options) (m : Z) (dt : R).
  Hypothesis Hpos : ndebug = false \/ (t0 < t1 /\ 0 < dt).

  Lemma window_erk opts (w w' : world R (St * list (call R))) r : erk_odeint fuel (logged F) t0 t1 y0 opts oo m dt w = (w', r) ->
    exists calls, snd (w_st w') = snd (w_st w) ++ calls /\ Forall (fun c => t0 <= call_time c <= t1) calls.
  Proof. intros E. destruct (wi_erk F fuel t0 t1 y0 opts oo m dt Hpos w) as (l & H1 & H2). rewrite E in H1. exists l. auto. Qed.
  Lemma window_irk opts (w w' : world R (St * list (call R))) r : irk_odeint fuel (logged F) t0 t1 y0 opts oo m dt w = (w', r) ->
    exists calls, snd (w_st w') = snd (w_st w) ++ calls /\ Forall (fun c => t0 <= call_time c <= t1) calls.
  Proof. intros E. destruct (wi_irk F fuel t0 t1 y0 opts oo m dt Hpos w) as (l & H1 & H2). rewrite E in H1. exists l. auto. Qed.

  Section Same.
  Variable G : functor R St.
  Hypothesis Hsame : forall c, t0 <= call_time c <= t1 -> agree_at F G c.
  Lemma same_of {A} (p : functor R (St * list (call R)) -> M (world R (St * list (call R))) A) (q : functor R St -> M (world R St) A) :
    (forall G, local F G (p (logged F)) (q G)) -> within (fun s => t0 <= s <= t1) (p (logged F)) -> forall w, q F w = q G w.
  Proof.
    intros Hl Hw w. set (w1 := World (w_st w, @nil (call R)) (w_out w)). destruct (p (logged F) w1) as [w2 r] eqn:E.
    destruct (local_all F p q Hl _ _ _ E) as (l & L1 & L2). destruct (Hw w1) as (l' & K1 & K2). rewrite E in K1. cbn [fst] in K1. rewrite L1 in K1. apply app_inv_head in K1. subst l'.
    assert (Eu : unlogged w1 = w) by (destruct w; reflexivity). rewrite <- Eu.
    rewrite (L2 F), (L2 G); [reflexivity| |].
    - eapply Forall_impl; [|exact K2]. exact Hsame.
    - apply Forall_forall. intros [] _; intros ?; reflexivity.
  Qed.
  Lemma same_erk opts w : erk_odeint fuel F t0 t1 y0 opts oo m dt w = erk_odeint fuel G t0 t1 y0 opts oo m dt w.
  Proof. exact (same_of (fun X => erk_odeint fuel X t0 t1 y0 opts oo m dt) (fun X => erk_odeint fuel X t0 t1 y0 opts oo m dt) (fun G => loc_erk F G _ _ _ _ _ _ _ _) (wi_erk F fuel t0 t1 y0 opts oo m dt Hpos) w). Qed.
  Lemma same_irk opts w : irk_odeint fuel F t0 t1 y0 opts oo m dt w = irk_odeint fuel G t0 t1 y0 opts oo m dt w.
  Proof. exact (same_of (fun X => irk_odeint fuel X t0 t1 y0 opts oo m dt) (fun X => irk_odeint fuel X t0 t1 y0 opts oo m dt) (fun G => loc_irk F G _ _ _ _ _ _ _ _) (wi_irk F fuel t0 t1 y0 opts oo m dt Hpos) w). Qed.
  End Same.
End Exact.
