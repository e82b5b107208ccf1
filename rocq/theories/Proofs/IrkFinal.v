(** Properties of completed runs of the implicit integrator over the reals. *)
From Coq Require Import Reals Lra Sorting.Sorted.
From Verif Require Import Model.Base Model.Scalar Model.LinAlg Model.Newton Model.Enums Model.Options Model.Coeffs Model.Irk Model.IrkCoeffs.
From Verif Require Import Spec.Sums Spec.Trees Spec.RkSpec Spec.Observe Spec.ErkSpec Spec.NewtonSpec Spec.IrkSpec Spec.IrkRunSpec Spec.Methods.
From Verif Require Import Proofs.LoopProofs Proofs.SumsProofs Proofs.OrderProofs Proofs.TablesGeneric Proofs.ErkProofs Proofs.ErkReal Proofs.ErkTimes Proofs.NewtonProofs Proofs.RVec
  Proofs.RkExact Proofs.IrkProofs Proofs.IrkReal Proofs.IrkStages Proofs.IrkRun Proofs.IrkGeneric Proofs.IrkResults Proofs.IrkSteps Proofs.IrkTimes Proofs.IrkMaster.
Local Open Scope R_scope.

(** ** Along a run *)
Section Chain.
  Context {T : Type} `{Scalar T}.
  Lemma ichained_snoc t0 (y0 : list T) l a : ichained t0 y0 (l ++ [a]) -> ichained t0 y0 l /\ ia_t a = itime_after t0 l /\ ia_y a = istate_after y0 l.
  Proof.
    intros Hc. split.
    - intros k x Hx. assert (Hk : (k < length l)%nat) by (apply nth_error_Some; congruence).
      destruct (Hc k x) as [E1 E2]; [rewrite nth_error_app1; assumption|]. rewrite firstn_app in E1, E2. replace (k - length l)%nat with 0%nat in * by lia. cbn [firstn] in E1, E2. rewrite app_nil_r in E1, E2. auto.
    - destruct (Hc (length l) a) as [E1 E2]; [rewrite nth_error_app2, Nat.sub_diag by lia; reflexivity|]. rewrite firstn_app, Nat.sub_diag, firstn_all in E1, E2. cbn [firstn] in E1, E2. rewrite app_nil_r in E1, E2. auto.
  Qed.
  Lemma chain_inv (P : T -> list T -> Prop) t0 y0 atts : ichained t0 y0 atts -> P t0 y0 ->
    (forall x, In x atts -> ia_out x = Accepted -> P (ia_t x) (ia_y x) -> P (ia_end x) (ia_yn x)) ->
    P (itime_after t0 atts) (istate_after y0 atts) /\ Forall (fun x => P (ia_end x) (ia_yn x)) (ended Accepted atts) /\ Forall (fun x => P (ia_t x) (ia_y x)) atts.
  Proof.
    induction atts as [|a atts IH] using rev_ind; intros Hc H0 Hs.
    - split; [exact H0|]. split; constructor.
    - apply ichained_snoc in Hc. destruct Hc as (Hc & E1 & E2).
      destruct (IH Hc H0) as (I1 & I2 & I3); [intros x Hx; apply Hs, in_or_app; left; exact Hx|].
      rewrite <- E1, <- E2 in I1. assert (I4 : Forall (fun x => P (ia_t x) (ia_y x)) (atts ++ [a])) by (apply Forall_app; split; [exact I3|repeat constructor; exact I1]).
      unfold itime_after, istate_after. rewrite ended_snoc. destruct (outcome_eqb (ia_out a) Accepted) eqn:Eo.
      + apply outcome_eqb_eq in Eo. assert (Ha : P (ia_end a) (ia_yn a)) by (apply Hs; [apply in_or_app; right; left; reflexivity|exact Eo|exact I1]).
        rewrite !map_app. cbn [map]. rewrite !last_last. split; [exact Ha|]. split; [apply Forall_app; split; [exact I2|repeat constructor; exact Ha]|exact I4].
      + rewrite app_nil_r. fold (itime_after t0 atts) (istate_after y0 atts). rewrite <- E1, <- E2. auto.
  Qed.
  Lemma records_inv (P : T -> list T -> Prop) t0 y0 oo atts sol d : records t0 y0 oo atts sol -> P t0 y0 -> Forall (fun x => P (ia_end x) (ia_yn x)) (ended Accepted atts) ->
    forall k, (k < length (io_t_vals sol))%nat -> P (nth k (io_t_vals sol) d) (nth k (io_y_vals sol) []).
  Proof.
    intros (R1 & R2 & _) H0 HF k Hk. rewrite R1 in * . rewrite R2. set (kept := if store_in_vectors oo then shown oo atts else []) in * .
    assert (HK : Forall (fun x => P (ia_end x) (ia_yn x)) kept).
    { unfold kept. destruct (store_in_vectors oo); [|constructor]. rewrite Forall_forall in * . intros x Hx. apply HF, (every_in _ _ _ Hx). }
    destruct k as [|k]; [exact H0|]. cbn [nth length] in * . rewrite map_length in Hk.
    destruct (nth_error kept k) as [x|] eqn:E; [|apply nth_error_None in E; lia].
    rewrite (nth_indep _ d (ia_end x)) by (rewrite map_length; lia). rewrite (nth_indep _ [] (ia_yn x)) by (rewrite map_length; lia). rewrite !map_nth.
    rewrite (nth_error_nth _ _ _ E). rewrite Forall_forall in HK. apply HK, (nth_error_In _ _ E).
  Qed.
End Chain.

(** ** Times *)
Lemma sorted_snoc (l : list R) x : StronglySorted Rlt l -> Forall (fun t => t < x) l -> StronglySorted Rlt (l ++ [x]).
Proof.
  induction l as [|a l IH]; intros Hl Hx; [repeat constructor|]. apply StronglySorted_inv in Hl. destruct Hl as [Hl Ha]. inversion Hx; subst. cbn [app].
  constructor; [apply IH; assumption|]. apply Forall_app. split; [exact Ha|repeat constructor; assumption].
Qed.
Lemma sorted_every {A} (g : A -> R) k l : forall i, StronglySorted Rlt (map g l) -> StronglySorted Rlt (map g (every_from k i l)).
Proof.
  induction l as [|a l IH]; intros i Hl; [constructor|]. cbn [map] in Hl. apply StronglySorted_inv in Hl. destruct Hl as [Hl Ha]. cbn [every_from].
  destruct (Z.rem i k =? 0)%Z; [|apply IH, Hl]. cbn [app map]. constructor; [apply IH, Hl|]. rewrite Forall_forall in * . intros x Hx. apply in_map_iff in Hx. destruct Hx as (b & <- & Hb).
  apply Ha, in_map. revert Hb. generalize (i + 1)%Z. clear. induction l as [|c l IH]; intros i Hb; [contradiction|]. cbn [every_from] in Hb. apply in_app_or in Hb. destruct Hb as [Hb|Hb]; [|right; eapply IH, Hb].
  destruct (Z.rem i k =? 0)%Z; destruct Hb; [left; assumption|contradiction].
Qed.
Lemma chain_sorted t0 y0 (atts : list (iattempt R)) : ichained t0 y0 atts -> Forall (fun x => 0 < ia_dt x) atts ->
  StronglySorted Rlt (t0 :: map ia_end (ended Accepted atts)) /\ Forall (fun t => t <= itime_after t0 atts) (t0 :: map ia_end (ended Accepted atts)).
Proof.
  induction atts as [|a atts IH] using rev_ind; intros Hc Hp.
  - split; [repeat constructor|]. constructor; [cbn; lra|constructor].
  - apply ichained_snoc in Hc. destruct Hc as (Hc & E1 & E2). apply Forall_app in Hp. destruct Hp as [Hp Ha]. inversion Ha as [|? ? Hd _]; subst. clear Ha.
    destruct (IH Hc Hp) as [I1 I2]. unfold itime_after. rewrite ended_snoc. destruct (outcome_eqb (ia_out a) Accepted); [|rewrite app_nil_r; auto].
    rewrite map_app. cbn [map]. rewrite last_last. change (t0 :: map ia_end (ended Accepted atts) ++ [ia_end a]) with ((t0 :: map ia_end (ended Accepted atts)) ++ [ia_end a]).
    assert (Hlt : Forall (fun t => t < ia_end a) (t0 :: map ia_end (ended Accepted atts))).
    { eapply Forall_impl; [|exact I2]. intros t Ht. cbv beta in Ht. rewrite <- E1 in Ht. unfold ia_end. simpl. lra. }
    split; [apply sorted_snoc; assumption|]. apply Forall_app. split; [|constructor; [lra|constructor]].
    eapply Forall_impl; [|exact Hlt]. intros t Ht. cbv beta in Ht. lra.
Qed.

Section Final.
  Context {LA : LinAlg R} {HE : Env R} {St : Type}.
  Local Notation W := (world R St).
  Variables (F : functor R St).
  Variables (fuel : nat) (t0 t1 : R) (y0 : list R) (opts : irk_options R) (oo : output_options) (m : Z) (dt : R) (w w' : W) (sol : irk_output R).
  Hypothesis Hstart : ndebug = false \/ (t0 < t1 /\ 0 < dt).
  Hypothesis Hrun : irk_odeint fuel F t0 t1 y0 opts oo m dt w = (w', Ok sol).

  (** times need no exactness of the linear algebra *)
  Lemma irk_times : t0 <= t1 ->
    StronglySorted Rlt (io_t_vals sol) /\ Forall (fun t => t0 <= t <= t1) (io_t_vals sol) /\
    (io_status sol = SUCCESS -> store_in_vectors oo = true -> output_interval oo = 1%Z -> last (io_t_vals sol) t0 = t1).
  Proof.
    intros Hle. destruct (finished_R F t0 t1 fuel y0 opts oo m dt Hstart _ _ _ Hrun) as (sc & nopts & mo & dw & d2w & Hst & atts & O & A & Fl & _ & E).
    assert (Eacc : ended Accepted (if (io_status sol =? GENERAL_ERROR)%Z then removelast atts else atts) = ended Accepted atts).
    { destruct E as [(E1 & _)|[(E1 & _)|(E1 & _ & _ & _ & _ & _ & a' & a & -> & E2 & _)]]; rewrite E1; try reflexivity.
      rewrite Z.eqb_refl, removelast_last, ended_snoc, E2. cbn. rewrite app_nil_r. reflexivity. }
    destruct A as [A1 A2 A3 A4 A5 A6 A7]. destruct O as [O1 _ _ _ _ _ _ _ _ _ _]. unfold stored in O1. rewrite Eacc in O1.
    assert (Hall : Forall (fun x => 0 < ia_dt x /\ ia_end x <= t1 /\ t0 <= ia_end x) atts).
    { rewrite Forall_forall in * . intros x Hx. destruct (A2 x Hx) as (s & (X1 & _ & _ & _ & X5) & B1 & B2 & B3 & B4 & B5 & _). apply Rltb_true in B4. rewrite clip_R in B3.
      assert (0 < ia_dt x) by (rewrite B3; apply Rmin_glb_lt; lra). pose proof (Rmin_r (is_dt s) (t1 - is_t s)). unfold ia_end. simpl. rewrite B1 in * . lra. }
    destruct (chain_sorted t0 y0 atts A1) as [S1 S2]; [eapply Forall_impl; [|exact Hall]; intros x Hx; apply Hx|].
    assert (Hb : Forall (fun t => t0 <= t <= t1) (t0 :: map ia_end (ended Accepted atts))).
    { constructor; [lra|]. rewrite Forall_forall in * . intros t Ht. apply in_map_iff in Ht. destruct Ht as (x & <- & Hx). apply ended_in in Hx. destruct (Hall x (proj1 Hx)). lra. }
    rewrite O1. destruct (store_in_vectors oo) eqn:Es.
    - split; [|split].
      + apply StronglySorted_inv in S1. destruct S1 as [S1 S3]. constructor; [apply sorted_every, S1|]. rewrite Forall_forall in * . intros t Ht. apply in_map_iff in Ht. destruct Ht as (x & <- & Hx). apply S3, in_map, (every_in _ _ _ Hx).
      + rewrite Forall_forall in * . intros t [<-|Ht]; [apply Hb; left; reflexivity|]. apply Hb. right. apply in_map_iff in Ht. destruct Ht as (x & <- & Hx). apply in_map, (every_in _ _ _ Hx).
      + intros Hok _ Ei. rewrite Ei, every_one. destruct E as [(_ & _ & _ & _ & E5)|[(E1 & _)|(E1 & _)]]; try (rewrite E1 in Hok; discriminate).
        apply Rltb_false in E5. rewrite Forall_forall in Hb.
        assert (Hi : itime_after t0 atts = last (t0 :: map ia_end (ended Accepted atts)) t0) by (unfold itime_after; destruct (map ia_end (ended Accepted atts)); reflexivity).
        rewrite <- Hi. assert (Hin : In (itime_after t0 atts) (t0 :: map ia_end (ended Accepted atts))) by (unfold itime_after; apply last_in).
        specialize (Hb _ Hin). lra.
    - cbn [map]. split; [repeat constructor|]. split; [constructor; [lra|constructor]|]. intros _ Hx. discriminate.
  Qed.
End Final.
