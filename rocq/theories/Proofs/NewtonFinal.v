(** The property theorems about newton.hpp, assembled. *)
From Coq Require Import Reals Lra.
From Verif Require Import Model.Base Model.Scalar Model.LinAlg Model.Newton Spec.Sums Spec.ErkSpec Spec.NewtonSpec
  Proofs.LoopProofs Proofs.SumsProofs Proofs.RVec Proofs.NewtonProofs Proofs.NewtonTotal Proofs.NewtonReal Proofs.NewtonLog.

Lemma consecutive_mono {A} (P Q : A -> A -> Prop) l : (forall a b, P a b -> Q a b) -> consecutive P l -> consecutive Q l.
Proof. intros H Hc k a b H1 H2. eapply H, Hc; eauto. Qed.

(** ** C51 *)
Section Status.
  Local Open Scope sc_scope.
  Lemma newton_status {T} {HS : Scalar T} {HL : LinAlg T} {HE : Env T} {St} (F : nfunctor T St) x opts stats quiet s l s' l' x' st pr :
    newton_iterate (nlogged F) x opts stats quiet (s, l) = ((s', l'), Ok (x', st, pr)) ->
    exists v0 V, let vl := last V v0 in
      v_x v0 = x /\ l' = l ++ newton_log (o_refresh_jac opts >? 0)%Z v0 V /\
      consecutive (newton_move (o_refresh_jac opts >? 0)%Z (o_limit_step opts)) (v0 :: V) /\
      st_iters st = Z.of_nat (length V) /\ (length V <= Z.to_nat (o_maxit opts))%nat /\
      (forall v, In v (removelast V) -> converged opts v = false) /\
      pr = (if quiet then O else Datatypes.S (length V)) /\
      ((x' = x /\ st = Status GENERIC_ERROR (st_res stats) (Z.of_nat (length V)) (st_eta_final stats) /\
        (length V < Z.to_nat (o_maxit opts))%nat /\ (forall v, In v V -> converged opts v = false) /\
        (o_precondition opts = false -> exists e, solve (v_J vl) (v_r vl) = Err (EThrow e)))
       \/
       (st_res st = ssqrt (la_dot (v_r vl) (v_r vl)) /\ st_eta_final st = sZ 1 /\
        st_conv st = (if negb (sfinite (st_res st)) then GENERIC_ERROR
                      else if (Z.of_nat (length V) =? o_maxit opts)%Z then MAXIT_EXCEEDED else SUCCESS) /\
        x' = (if (st_conv st =? SUCCESS)%Z then v_x vl else x) /\
        ((length V < Z.to_nat (o_maxit opts))%nat -> V <> [] /\ converged opts vl = true))).
  Proof.
    rewrite dispatch. change (if (o_refresh_jac opts >? 0)%Z then 1%Z else 0%Z) with (flag opts). intros Hr.
    unfold newton_iterate_impl in Hr. apply impl_run in Hr.
    destruct Hr as (v0 & V & Hx & Hd0 & Hans & Hlog & Hmv & Hnc & Hlen & Hit & Hpr & Hout).
    cbn [fst snd] in * . rewrite flag_refresh in Hlog.
    exists v0, V. cbv zeta. split; [exact Hx|]. split; [exact Hlog|].
    split. { refine (consecutive_mono _ _ _ _ Hmv). intros a b [H1 _]. rewrite flag_refresh in H1. exact H1. }
    split; [exact Hit|]. split; [exact Hlen|]. split; [exact Hnc|]. split; [exact Hpr|].
    destruct Hout as [(H1 & H2 & H3 & H4 & H5 & H6 & LUP & e & Hsh & He)|(H1 & H2 & H3 & H4 & H5)].
    - left. split; [exact H1|]. split; [destruct st as [q1 q2 q3 q4]; cbn [st_conv st_res st_iters st_eta_final] in *; subst; reflexivity|].
      split; [exact H5|]. split; [exact H6|]. intros Hp. unfold newton_direction in He. rewrite Hp in He. destruct LUP as [[L U] P].
      rewrite flag_store in He. simpl negb in He. cbn match in He.
      destruct (solve (v_J (last V v0)) (v_r (last V v0))) as [d|e']; simpl in He; [discriminate|]. injection He as ->. eauto.
    - right. repeat (split; [assumption|]). intros Hlt. destruct (H5 Hlt) as (V' & v & -> & Hc). rewrite last_last.
      split; [intros E; destruct V'; discriminate|exact Hc].
  Qed.
End Status.

(** the status in short, for a system that is not being logged *)
Lemma newton_summary {T} {HS : Scalar T} {HL : LinAlg T} {HE : Env T} {St} (F : nfunctor T St) x opts stats quiet s s' x' st pr :
  newton_iterate F x opts stats quiet s = (s', Ok (x', st, pr)) ->
  (0 <= st_iters st <= Z.max 0 (o_maxit opts))%Z /\
  (st_conv st = SUCCESS \/ st_conv st = MAXIT_EXCEEDED \/ st_conv st = GENERIC_ERROR) /\
  (st_conv st <> SUCCESS -> x' = x) /\
  (st_conv st = MAXIT_EXCEEDED -> st_iters st = o_maxit opts /\ sfinite (st_res st) = true) /\
  (st_conv st = SUCCESS -> sfinite (st_res st) = true /\
     ((0 < st_iters st < o_maxit opts)%Z \/ (o_maxit opts < 0 /\ st_iters st = 0)%Z /\ x' = x)).
Proof.
  intros Hr. apply (newton_logged F _ _ _ _ _ _ _ []) in Hr. destruct Hr as [l' Hr]. apply newton_status in Hr.
  destruct Hr as (v0 & V & Hx & _ & _ & Hit & Hlen & _ & _ & Hout). rewrite Hit.
  split; [lia|]. destruct Hout as [(-> & -> & Hlt & _)|(Hres & _ & Hconv & Hx' & Hdone)].
  - cbn [st_conv st_res]. unfold GENERIC_ERROR, SUCCESS, MAXIT_EXCEEDED. split; [lia|]. split; [reflexivity|]. split; intros E; discriminate.
  - assert (HS0 : st_conv st <> SUCCESS -> x' = x).
    { intros Hn. rewrite Hx'. destruct (st_conv st =? SUCCESS)%Z eqn:E; [apply Z.eqb_eq in E; contradiction|reflexivity]. }
    split. { rewrite Hconv. destruct (negb _); [tauto|]. destruct (_ =? _)%Z; tauto. }
    split; [exact HS0|].
    destruct (sfinite (st_res st)) eqn:Hfin; cbn [negb] in Hconv.
    + destruct (Z.of_nat (length V) =? o_maxit opts)%Z eqn:Em; rewrite Hconv.
      * apply Z.eqb_eq in Em. split; [auto|]. discriminate.
      * apply Z.eqb_neq in Em. split; [discriminate|]. intros _. split; [reflexivity|].
        destruct (Z_lt_le_dec (o_maxit opts) 0) as [Hneg|Hpos].
        -- right. assert (V = []) as -> by (destruct V; [reflexivity|simpl in Hlen; lia]). simpl. split; [lia|].
           rewrite Hx'. simpl last. rewrite Hx. destruct (_ =? _)%Z; reflexivity.
        -- left. assert (Hlt : (length V < Z.to_nat (o_maxit opts))%nat) by lia. destruct (Hdone Hlt) as [Hne _].
           destruct V; [contradiction|]. simpl length in * . lia.
    + rewrite Hconv. unfold GENERIC_ERROR, SUCCESS, MAXIT_EXCEEDED. split; discriminate.
Qed.

Local Open Scope R_scope.
Lemma newton_steps {LA : LinAlg R} {HP : ExactProducts LA} {E : Env R} {HX : ExactSolve LA} {St} (F : nfunctor R St) x opts stats quiet s l s' l' x' st pr :
  (o_precondition opts = true -> junk = 0) ->
  newton_iterate (nlogged F) x opts stats quiet (s, l) = ((s', l'), Ok (x', st, pr)) ->
  exists v0 V, v_x v0 = x /\ l' = l ++ newton_log (o_refresh_jac opts >? 0)%Z v0 V /\
    (st_conv st = SUCCESS -> x' = v_x (last V v0)) /\
    consecutive (fun v v' => invertible (v_J v) -> newton_step opts v v') (v0 :: V).
Proof.
  intros Hj. rewrite dispatch. change (if (o_refresh_jac opts >? 0)%Z then 1%Z else 0%Z) with (flag opts). intros Hr.
  unfold newton_iterate_impl in Hr. apply impl_run in Hr.
  destruct Hr as (v0 & V & Hx & Hd0 & Hans & Hlog & Hmv & Hnc & Hlen & Hit & Hpr & Hout).
  cbn [fst snd] in * . rewrite flag_refresh in Hlog.
  exists v0, V. split; [exact Hx|]. split; [exact Hlog|]. split.
  { intros Hs. destruct Hout as [(_ & H1 & _)|(_ & _ & _ & H1 & _)]; [rewrite H1 in Hs; discriminate|]. rewrite H1, Hs. reflexivity. }
  refine (consecutive_mono _ _ _ _ Hmv). intros a b H. exact (moves_step x opts Hj a b H).
Qed.
Lemma newton_max_step {LA : LinAlg R} {HP : ExactProducts LA} {E : Env R} {St} (F : nfunctor R St) x opts stats quiet s l s' l' x' st pr :
  0 < o_max_step opts ->
  newton_iterate (nlogged F) x opts stats quiet (s, l) = ((s', l'), Ok (x', st, pr)) ->
  exists v0 V, v_x v0 = x /\ l' = l ++ newton_log (o_refresh_jac opts >? 0)%Z v0 V /\
    consecutive (fun v v' => norm2 (vminus (v_x v') (v_x v)) <= o_max_step opts) (v0 :: V).
Proof.
  intros Hm. rewrite dispatch. change (if (o_refresh_jac opts >? 0)%Z then 1%Z else 0%Z) with (flag opts). intros Hr.
  unfold newton_iterate_impl in Hr. apply impl_run in Hr.
  destruct Hr as (v0 & V & Hx & Hd0 & Hans & Hlog & Hmv & Hnc & Hlen & Hit & Hpr & Hout).
  cbn [fst snd] in * . rewrite flag_refresh in Hlog.
  exists v0, V. split; [exact Hx|]. split; [exact Hlog|].
  refine (consecutive_mono _ _ _ _ Hmv). intros a b H. destruct (moves_limited x opts a b H) as [e He].
  exact (step_length opts a b e He Hm).
Qed.

(** ** C53 *)
Section Linear.
  Context {LA : LinAlg R} {HP : ExactProducts LA} {E : Env R} {HX : ExactSolve LA} {HN : ExactNorm LA} {St : Type} (F : nfunctor R St).
  Context (A : mat R) (b x : list R) (opts : options R) (stats : status R) (quiet : bool).
  Hypothesis HF : linear_system F A b.
  Hypothesis Hwf : mat_wf A.
  Hypothesis HA : invertible A.
  Hypothesis Hb : length b = nrows A.
  Hypothesis Hxl : length x = nrows A.
  Hypothesis Hlim : o_limit_step opts = false.
  Hypothesis Hms : o_max_step opts <= 0.
  Hypothesis Hdx : 0 < o_dx_delta opts.
  Hypothesis Hmaxit : (2 < o_maxit opts)%Z.
  Hypothesis Hjunk : o_precondition opts = true -> junk = 0.

  Definition good (v : visit R) : Prop :=
    length (v_x v) = nrows A /\ v_J v = A /\ length (v_r v) = nrows A /\
    forall i, (i < nrows A)%nat -> ventry (v_r v) i = Rsum (nrows A) (fun j => mentry A i j * ventry (v_x v) j) - ventry b i.
  Lemma A_sq : ncols A = nrows A. Proof. destruct HA as [B (H & _)]. auto. Qed.

  Lemma good_answered v : length (v_x v) = nrows A -> v_J v = A -> answered F v -> good v.
  Proof.
    intros H1 H2 (s & s' & H3). destruct HF as [Hf _]. destruct (Hf (v_x v) s H1) as (s1 & r & H4 & H5 & H6).
    rewrite H4 in H3. injection H3 as _ E3. split; [exact H1|]. split; [exact H2|]. rewrite <- E3. split; assumption.
  Qed.
  Lemma good_step v v' : good v -> newton_step opts v v' -> length (v_x v') = nrows A /\ is_solution A (v_x v') b /\
    (is_solution A (v_x v) b -> converged opts v' = true).
  Proof.
    intros (G1 & G2 & G3 & G4) (e & He & Hl & Hd & Hx). rewrite G2 in He. rewrite Hlim in Hx, Hd.
    destruct (Rlt_dec 0 (o_max_step opts)) as [Hc|_]; [lra|]. pose proof A_sq as Hsq.
    destruct He as (E1 & E2 & E3). rewrite Hsq in * .
    split; [congruence|]. split.
    - split; [congruence|]. split; [exact Hb|]. intros i Hi. rewrite Hsq.
      rewrite (Rsum_ext _ _ (fun j => mentry A i j * ventry (v_x v) j + mentry A i j * ventry e j)).
      2:{ intros j Hj. rewrite Hx by congruence. ring. }
      rewrite Rsum_plus, E3, ventry_vopp, G4 by assumption. ring.
    - intros Hs. destruct Hs as (_ & _ & Hs). rewrite Hsq in Hs.
      assert (Hr0 : forall i, (i < nrows A)%nat -> ventry (v_r v) i = 0) by (intros i Hi; rewrite G4, Hs by assumption; ring).
      assert (He0 : e = vzeros (nrows A)).
      { apply (solution_unique A e (vzeros (nrows A)) (vopp (v_r v))); [exact HA|split; [congruence|split; [exact E2|rewrite Hsq; exact E3]]|].
        split; [rewrite vzeros_length; congruence|]. split; [exact E2|]. intros i Hi. rewrite ventry_vopp, Hr0 by assumption.
        rewrite Rsum_0; [ring|]. intros j Hj. rewrite ventry_vzeros. ring. }
      unfold converged. rewrite Hd, He0. apply Rltb_t. destruct (exact_norminf (LA := LA) (map (fun a => 1 * a) (vzeros (nrows A)))) as [_ [[_ ->]|(a & Ha & ->)]]; [exact Hdx|].
      apply in_map_iff in Ha. destruct Ha as (a' & <- & Ha). apply repeat_spec in Ha. rewrite Ha. simpl. rewrite Rmult_0_r, Rabs_R0. exact Hdx.
  Qed.

  Lemma newton_linear s l :
    exists s' v0 V x' st pr,
      newton_iterate (nlogged F) x opts stats quiet (s, l) = ((s', l ++ newton_log (o_refresh_jac opts >? 0)%Z v0 V), Ok (x', st, pr)) /\
      v_x v0 = x /\ (forall v, In v V -> is_solution A (v_x v) b) /\
      (length V = 1 \/ length V = 2)%nat /\ st_iters st = Z.of_nat (length V) /\
      st_conv st = SUCCESS /\ is_solution A x' b /\ st_res st = 0.
  Proof.
    destruct HF as [Hf HJ].
    destruct (newton_returns (nlogged F) (nrows A)) with (x := x) (opts := opts) (stats := stats) (quiet := quiet) (s := (s, l)) as ((s' & l') & [[x' st] pr] & Hr).
    { intros y [s0 l0] Hy. destruct (Hf y s0 Hy) as (s1 & v & H1 & H2 & _). exists (s1, l0 ++ [NFun y v]), v. simpl. rewrite H1. auto. }
    { intros y [s0 l0] Hy. destruct (HJ y s0 Hy) as (s1 & H1). exists (s1, l0 ++ [NJac y A]), A. simpl. rewrite H1. split; [reflexivity|apply A_sq]. }
    { exact Hxl. }
    pose proof Hr as Hr0. rewrite dispatch in Hr. change (if (o_refresh_jac opts >? 0)%Z then 1%Z else 0%Z) with (flag opts) in Hr.
    unfold newton_iterate_impl in Hr. apply impl_run in Hr.
    destruct Hr as (v0 & V & Hx & Hd0 & (Ha1 & Ha2 & Ha3) & Hlog & Hmv & Hnc & Hlen & Hit & Hpr & Hout).
    cbn [fst snd] in * . rewrite flag_refresh in * . subst l'.
    assert (Hgood : forall k v, nth_error (v0 :: V) k = Some v -> good v /\ (k <> 0%nat -> is_solution A (v_x v) b)).
    { induction k as [|k IH]; intros v Hv.
      - injection Hv as <-. split; [|congruence]. apply good_answered; [rewrite Hx; exact Hxl| |inversion Ha1; assumption].
        destruct Ha2 as (s0 & s1 & H1). destruct (HJ (v_x v0) s0) as (s2 & H2); [rewrite Hx; exact Hxl|]. rewrite H2 in H1. injection H1 as _ E3. auto.
      - destruct (nth_error (v0 :: V) k) as [u|] eqn:Eu.
        2:{ apply nth_error_None in Eu. assert (nth_error (v0 :: V) (S k) <> None) by congruence. apply nth_error_Some in H. lia. }
        destruct (IH u eq_refl) as [Hg _]. pose proof (Hmv k u v Eu Hv) as Hm.
        assert (HJu : v_J u = A) by apply Hg.
        assert (Hst : newton_step opts u v) by (apply (moves_step x opts Hjunk u v Hm); rewrite HJu; exact HA).
        destruct (good_step u v Hg Hst) as (G1 & G2 & _). split; [|intros _; exact G2].
        assert (Hin : In v (v0 :: V)) by (eapply nth_error_In; exact Hv).
        apply good_answered; [exact G1| |rewrite Forall_forall in Ha1; apply Ha1, Hin].
        destruct (o_refresh_jac opts >? 0)%Z eqn:Er.
        + specialize (Ha3 eq_refl). assert (Hin' : In v V) by (simpl in Hv; eapply nth_error_In; exact Hv).
          rewrite Forall_forall in Ha3. destruct (Ha3 v Hin') as (s0 & s1 & H1). destruct (HJ (v_x v) s0 G1) as (s2 & H2). rewrite H2 in H1. injection H1 as _ E3. auto.
        + destruct Hm as [[_ Hm] _]. rewrite Hm; [exact HJu|]. rewrite flag_refresh. exact Er. }
    assert (Hsol : forall v, In v V -> is_solution A (v_x v) b).
    { intros v Hv. apply In_nth_error in Hv. destruct Hv as [k Hk]. apply (Hgood (S k) v); [exact Hk|lia]. }
    assert (Hle2 : (length V <= 2)%nat).
    { destruct V as [|v1 [|v2 [|v3 V]]]; simpl; try lia. exfalso.
      assert (Hc : converged opts v2 = true).
      { destruct (Hgood 1%nat v1 eq_refl) as [Hg Hs]. apply (good_step v1 v2 Hg); [|apply Hs; lia].
        apply (moves_step x opts Hjunk v1 v2 (Hmv 1%nat v1 v2 eq_refl eq_refl)). destruct Hg as (_ & -> & _). exact HA. }
      rewrite Hnc in Hc; [discriminate|]. simpl. auto. }
    assert (Hgl : good (last V v0)).
    { destruct (cons_last v0 V) as [l0 El]. apply (Hgood (length l0)). rewrite El. rewrite nth_error_app2 by lia. rewrite Nat.sub_diag. reflexivity. }
    destruct Hout as [(_ & _ & _ & _ & _ & _ & LUP & e & Hsh & He)|(Hres & _ & Hconv & Hx' & Hdone)].
    { exfalso. destruct (direction_ok_R (flag opts) (o_precondition opts) (length x) (v_J (last V v0)) LUP (v_r (last V v0))) as (d & LUP' & Hd).
      - apply (flag_store opts).
      - intros Hp. split; [apply Hjunk, Hp|]. split; [apply Hsh, (flag_store opts)|]. destruct Hgl as (_ & -> & _). exact Hwf.
      - destruct Hgl as (_ & -> & _). exact HA.
      - destruct Hgl as (_ & -> & _). congruence.
      - destruct Hgl as (_ & _ & -> & _). congruence.
      - rewrite Hd in He. discriminate. }
    assert (Hne : V <> []) by (destruct Hdone as (V' & v & -> & _); [lia|intros E0; destruct V'; discriminate]).
    assert (Hconv' : st_conv st = SUCCESS).
    { rewrite Hconv. replace (sfinite (st_res st)) with true by reflexivity. cbn [negb].
      destruct (Z.of_nat (length V) =? o_maxit opts)%Z eqn:Em; [apply Z.eqb_eq in Em; lia|reflexivity]. }
    assert (Hlast : In (last V v0) V).
    { destruct (exists_last Hne) as (V' & v & ->). rewrite last_last. apply in_or_app. right. left. reflexivity. }
    exists s', v0, V, x', st, pr. split; [exact Hr0|]. split; [exact Hx|]. split; [exact Hsol|].
    split; [destruct V as [|? [|? [|]]]; simpl in *; try lia; congruence|].
    split; [exact Hit|]. split; [exact Hconv'|]. split.
    - rewrite Hx', Hconv'. simpl. apply Hsol, Hlast.
    - rewrite Hres. simpl. rewrite exact_dot by reflexivity. rewrite Rsum_0; [apply sqrt_0|].
      destruct Hgl as (G1 & G2 & G3 & G4). intros i Hi. rewrite G3 in Hi. rewrite G4 by exact Hi.
      destruct (Hsol _ Hlast) as (_ & _ & Hs). rewrite A_sq in Hs. rewrite Hs by exact Hi. ring.
  Qed.
End Linear.
