(** Exactness properties of the explicit integrator over the reals. *)
From Coq Require Import Reals Lra.
From Verif Require Import Model.Base Model.Scalar Model.LinAlg Model.Enums Model.Options Model.Coeffs Model.ErkCoeffs Model.Erk.
From Verif Require Import Spec.Sums Spec.Trees Spec.RkSpec Spec.Observe Spec.ErkSpec Spec.Methods.
From Verif Require Import Proofs.SumsProofs Proofs.OrderProofs Proofs.TablesGeneric Proofs.ErkCoeffsProofs Proofs.ErkProofs Proofs.ErkRun Proofs.ErkReal Proofs.ErkGeneric Proofs.RkExact.
Local Open Scope R_scope.

(** A property of consecutive entries, propagated along the recorded solution. *)
Lemma along {P : nat -> Prop} n : P 0%nat -> (forall k, (S k < n)%nat -> P k -> P (S k)) -> forall k, (k < n)%nat -> P k.
Proof. intros H0 HS. induction k as [|k IH]; intros Hk; [exact H0|]. apply HS; [exact Hk|]. apply IH. lia. Qed.

Section Exact.
  Context {E : Env R} {LA : LinAlg R} {X : ExactProducts LA} {St : Type}.
  Variables (F : functor R St) (f : R -> list R -> list R).
  Hypothesis HF : computes F f.
  Variables (fuel : nat) (t0 t1 : R) (y0 : list R) (opts : erk_options R) (oo : output_options) (m : Z) (dt : R).
  Variables (w w' : world R St) (sol : erk_output R).
  Hypothesis Hrun : erk_odeint fuel F t0 t1 y0 opts oo m dt w = (w', Ok sol).

  (** C23 *)
  Lemma erk_is_rk : exists sc, erk_get_coefficients m = Ok sc /\
    forall k, (S k < length (eo_t_vals sol))%nat -> exists K, nth (S k) (eo_stages sol) [] = concat K /\
      rk_step (length y0) (length (sc_b sc)) (mfun (sc_A sc)) (vfun (sc_b sc)) (vfun (sc_c sc)) f
        (nth k (eo_t_vals sol) 0) (nth (S k) (eo_t_vals sol) 0 - nth k (eo_t_vals sol) 0)
        (nth k (eo_y_vals sol) []) (nth (S k) (eo_y_vals sol) []) K.
  Proof.
    destruct (erk_steps F f HF _ _ _ _ _ _ _ _ _ _ _ Hrun) as (sc & Hm & Hg & Hs). exists sc. split; [exact Hg|].
    intros k Hk. destruct (Hs k Hk) as (K & Hz & RK & _). eauto.
  Qed.

  (** C22 *)
  Lemma erk_tolerance : eo_adaptive opts = true -> In m explicit_embedded -> exists sc, erk_get_coefficients m = Ok sc /\
    forall k, (S k < length (eo_t_vals sol))%nat ->
      let h := nth (S k) (eo_t_vals sol) 0 - nth k (eo_t_vals sol) 0 in
      let y := nth k (eo_y_vals sol) [] in
      let y' := nth (S k) (eo_y_vals sol) [] in
      let est := nth (S k) (eo_err_est sol) [] in
      nth (S k) (eo_err sol) 0 < 1 /\
      nth (S k) (eo_err sol) 0 = Rmax (1 / 10 ^ 17) (rms_error (length y0) (eo_abs_tol opts) (eo_rel_tol opts) y y' est) /\
      exists K, nth (S k) (eo_stages sol) [] = concat K /\
        rk_step (length y0) (length (sc_b sc)) (mfun (sc_A sc)) (vfun (sc_b sc)) (vfun (sc_c sc)) f (nth k (eo_t_vals sol) 0) h y y' K /\
        est = embedded_difference (length y0) (length (sc_b sc)) (vfun (sc_b sc)) (vfun (sc_b2 sc)) h K.
  Proof.
    intros Ea Hin. destruct (erk_steps F f HF _ _ _ _ _ _ _ _ _ _ _ Hrun) as (sc & Hm & Hg & Hs). exists sc. split; [exact Hg|].
    assert (Hb2 : sc_b2 sc <> []).
    { destruct (erk_get_ok (T := R) m) as (sc' & Hg' & Ht & _). rewrite Hg in Hg'. injection Hg' as <-. clear - Hin Ht.
      simpl in Hin. repeat (destruct Hin as [<-|Hin]; [injection Ht as <-; discriminate|]). contradiction. }
    assert (Ef : eff_opts opts sc = opts) by (unfold eff_opts; rewrite Ea; destruct (sc_b2 sc); [congruence|reflexivity]).
    rewrite Ef in Hs. intros k Hk. destruct (Hs k Hk) as (K & Hz & RK & Hc). destruct (Hc Ea) as (C1 & C2 & C3). cbv zeta.
    split; [exact C3|]. split.
    - rewrite C2. f_equal. unfold mprec. simpl. lra.
    - exists K. auto.
  Qed.

  Lemma y_first : nth 0 (eo_y_vals sol) [] = y0 /\ nth 0 (eo_t_vals sol) 0 = t0.
  Proof.
    destruct (erk_aligned F fuel t0 t1 y0 opts oo m dt w w' sol Hrun) as (H1 & H2 & _ & _ & _ & H3 & H4 & _).
    split; apply nth_error_nth; assumption.
  Qed.

  (** C25 *)
  Lemma erk_invariant wt : (forall t y, length y = length y0 -> Rsum (length y0) (fun q => wt q * ventry (f t y) q) = 0) ->
    forall k, (k < length (eo_y_vals sol))%nat ->
    Rsum (length y0) (fun q => wt q * ventry (nth k (eo_y_vals sol) []) q) = Rsum (length y0) (fun q => wt q * ventry y0 q).
  Proof.
    intros Hw. destruct y_first as [Hy0 _]. destruct (erk_aligned F fuel t0 t1 y0 opts oo m dt w w' sol Hrun) as (_ & HL & _).
    destruct erk_is_rk as (sc & Hg & Hs). apply along; [rewrite Hy0; reflexivity|].
    intros k Hk IH. rewrite HL in Hk. destruct (Hs k Hk) as (K & _ & RK). rewrite (rk_invariant _ _ _ _ _ _ _ _ _ _ _ wt RK Hw). exact IH.
  Qed.

  (** C26 *)
  Lemma erk_poly_exact p p2 d cf : In (m, p, p2) explicit_orders -> (d <= p)%nat ->
    (forall t y q, length y = length y0 -> (q < length y0)%nat -> ventry (f t y) q = poly d (cf q) t) ->
    forall k q, (k < length (eo_y_vals sol))%nat -> (q < length y0)%nat ->
    ventry (nth k (eo_y_vals sol) []) q = ventry y0 q + poly_integral d (cf q) t0 (nth k (eo_t_vals sol) 0).
  Proof.
    intros Hin Hd Hf k q Hk Hq. destruct y_first as [Hy0 Ht0]. destruct (erk_aligned F fuel t0 t1 y0 opts oo m dt w w' sol Hrun) as (_ & HL & _).
    destruct erk_is_rk as (sc & Hg & Hs). destruct (TablesFinal.erk_orders m p p2 Hin) as (sc' & s & Hfa).
    pose proof (ef_get _ _ _ _ _ Hfa) as Hg'. rewrite Hg in Hg'. injection Hg' as <-.
    destruct (dims_of sc s (ef_dims _ _ _ _ _ Hfa)) as (Ls & _).
    destruct (ef_exact _ _ _ _ _ Hfa) as [Ho _]. pose proof (quadrature _ _ _ _ _ Ho (ef_rows _ _ _ _ _ Hfa)) as Hquad.
    revert k Hk. apply (along (P := fun k => ventry (nth k (eo_y_vals sol) []) q = ventry y0 q + poly_integral d (cf q) t0 (nth k (eo_t_vals sol) 0))).
    - rewrite Hy0, Ht0. unfold poly_integral. rewrite Rsum_0; [ring|]. intros. unfold Rdiv. ring.
    - intros k Hk IH. rewrite HL in Hk. destruct (Hs k Hk) as (K & _ & RK). rewrite Ls in RK.
      rewrite (rk_poly _ _ _ _ _ _ _ _ _ _ _ p d cf RK Hquad Hd Hf q Hq), IH, Rplus_assoc. f_equal.
      rewrite Rplus_minus. apply poly_integral_chain.
  Qed.

  (** C35 *)
  Lemma erk_linear lam : (forall t y q, length y = length y0 -> (q < length y0)%nat -> ventry (f t y) q = lam * ventry y q) ->
    exists sc, erk_get_coefficients m = Ok sc /\ let R_ := stability (length (sc_b sc)) (mfun (sc_A sc)) (vfun (sc_b sc)) in
    (forall k q, (S k < length (eo_y_vals sol))%nat -> (q < length y0)%nat ->
       ventry (nth (S k) (eo_y_vals sol) []) q =
       R_ (lam * (nth (S k) (eo_t_vals sol) 0 - nth k (eo_t_vals sol) 0)) * ventry (nth k (eo_y_vals sol) []) q) /\
    forall p p2, In (m, p, p2) explicit_orders -> forall i, (i <= p)%nat ->
      stab_coeff (length (sc_b sc)) (mfun (sc_A sc)) (vfun (sc_b sc)) i = 1 / INR (fact i).
  Proof.
    intros Hf. destruct (erk_aligned F fuel t0 t1 y0 opts oo m dt w w' sol Hrun) as (_ & HL & _).
    destruct (erk_steps F f HF _ _ _ _ _ _ _ _ _ _ _ Hrun) as (sc & Hm & Hg & Hs). exists sc. split; [exact Hg|]. split.
    - intros k q Hk Hq. rewrite HL in Hk. destruct (Hs k Hk) as (K & _ & RK & _).
      destruct (sc_facts m sc Hm Hg) as (_ & _ & Hlow & _ & _).
      exact (rk_linear _ _ _ _ _ _ _ _ _ _ _ lam RK Hlow Hf q Hq).
    - intros p p2 Hin i Hi. destruct (TablesFinal.erk_orders m p p2 Hin) as (sc' & s & Hfa).
      pose proof (ef_get _ _ _ _ _ Hfa) as Hg'. rewrite Hg in Hg'. injection Hg' as <-.
      destruct (dims_of sc s (ef_dims _ _ _ _ _ Hfa)) as (Ls & _). rewrite Ls.
      destruct (ef_exact _ _ _ _ _ Hfa) as [Ho _]. exact (stab_coeff_order _ _ _ _ Ho i Hi).
  Qed.
End Exact.
