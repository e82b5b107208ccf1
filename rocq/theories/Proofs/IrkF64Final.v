(** The times an implicit run records in doubles. *)
From Coq Require Import Reals Lra Sorted.
From Flocq Require Import Core IEEE754.BinarySingleNaN.
From Verif Require Import Model.Base Model.Scalar Model.LinAlg Model.Newton Model.Enums Model.Options Model.Coeffs Model.Irk Model.IrkCoeffs.
From Verif Require Import Spec.Sums Spec.Observe Spec.ErkSpec Spec.NewtonSpec Spec.IrkSpec Spec.Methods Spec.F64Spec.
From Verif Require Import Proofs.LoopProofs Proofs.ErkProofs Proofs.IrkProofs Proofs.IrkRun Proofs.IrkGeneric Proofs.IrkResults Proofs.F64Steps Proofs.ErkF64Times Proofs.IrkF64Times.
From Verif Require Proofs.IrkStages Proofs.IrkFinal.
Local Open Scope R_scope.

(** ** The recorded times *)
Lemma sorted_every_rel {A B} (R : B -> B -> Prop) (g : A -> B) k l : forall i, StronglySorted R (map g l) -> StronglySorted R (map g (every_from k i l)).
Proof.
  induction l as [|a l IH]; intros i Hl; [constructor|]. cbn [map] in Hl. apply StronglySorted_inv in Hl. destruct Hl as [Hl Ha]. cbn [every_from].
  destruct (Z.rem i k =? 0)%Z; [|apply IH, Hl]. cbn [app map]. constructor; [apply IH, Hl|]. rewrite Forall_forall in * . intros x Hx. apply in_map_iff in Hx. destruct Hx as (b & <- & Hb).
  apply Ha, in_map. revert Hb. generalize (i + 1)%Z. clear. induction l as [|c l IH]; intros i Hb; [contradiction|]. cbn [every_from] in Hb. apply in_app_or in Hb. destruct Hb as [Hb|Hb]; [|right; eapply IH, Hb].
  destruct (Z.rem i k =? 0)%Z; destruct Hb; [left; assumption|contradiction].
Qed.
Lemma removelast_every {A B} (P : B -> Prop) (g : A -> B) k l : forall i, Forall P (removelast (map g l)) -> Forall P (removelast (map g (every_from k i l))).
Proof.
  induction l as [|a l IH]; intros i Hl; [constructor|]. cbn [every_from]. destruct l as [|b l].
  - cbn [every_from]. destruct (Z.rem i k =? 0)%Z; constructor.
  - cbn [map removelast] in Hl. inversion_clear Hl as [|? ? Ha Hr]. change (Forall P (removelast (map g (b :: l)))) in Hr. specialize (IH (i + 1)%Z Hr).
    destruct (Z.rem i k =? 0)%Z; [|exact IH]. cbn [app]. set (e := every_from k (i + 1) (b :: l)) in * . clearbody e. destruct e as [|c e]; [constructor|].
    cbn [map removelast]. constructor; [exact Ha|exact IH].
Qed.
Lemma removelast_cons {A B} (P : B -> Prop) (g : A -> B) k (t : B) l : P t -> Forall P (removelast (t :: map g l)) -> Forall P (removelast (t :: map g (every k l))).
Proof.
  intros Pt Hl. unfold every. destruct l as [|b l]; [constructor|]. change (removelast (t :: map g (b :: l))) with (t :: removelast (map g (b :: l))) in Hl.
  apply Forall_inv_tail in Hl. apply (removelast_every P g k (b :: l) 1%Z) in Hl. destruct (map g (every_from k 1 (b :: l))) as [|c e]; [constructor|].
  change (removelast (t :: c :: e)) with (t :: removelast (c :: e)). constructor; [exact Pt|exact Hl].
Qed.
Section Chain.
  Context (pw : f64 -> f64 -> f64).
  Let HS := F64Scalar pw.
  Existing Instance HS.
  Lemma chain_sorted64 (t0 : f64) y0 (x1 : R) (atts : list (iattempt f64)) : ichained t0 y0 atts -> Forall (fun x => B2R (ia_t x) <= B2R (ia_end x) /\ B2R (ia_t x) < x1) atts ->
    let ts := t0 :: map ia_end (ended Accepted atts) in
    StronglySorted (fun s t => B2R s <= B2R t) ts /\ Forall (fun t => B2R t <= B2R (itime_after t0 atts)) ts /\ Forall (fun t => B2R t < x1) (removelast ts).
  Proof.
    cbv zeta. induction atts as [|a atts IH] using rev_ind; intros Hc Hp.
    - split; [repeat constructor|]. split; [|constructor]. constructor; [apply Rle_refl|constructor].
    - apply IrkFinal.ichained_snoc in Hc. destruct Hc as (Hc & E1 & E2). apply Forall_app in Hp. destruct Hp as [Hp Ha]. apply Forall_inv in Ha. destruct Ha as [Hd Hd1].
      destruct (IH Hc Hp) as (I1 & I2 & I3). unfold itime_after. rewrite ended_snoc. destruct (outcome_eqb (ia_out a) Accepted); [|rewrite app_nil_r; auto].
      rewrite map_app. change (map ia_end [a]) with [ia_end a]. rewrite last_last. set (ts := t0 :: map ia_end (ended Accepted atts)) in * .
      change (t0 :: map ia_end (ended Accepted atts) ++ [ia_end a]) with (ts ++ [ia_end a]). pose proof (eq_ind _ (fun z : f64 => B2R z <= B2R (ia_end a)) Hd _ E1) as Hd'. pose proof (eq_ind _ (fun z : f64 => B2R z < x1) Hd1 _ E1) as Hd1'. cbv beta in Hd', Hd1'. clear Hd Hd1.
      assert (Hlt : Forall (fun t => B2R t <= B2R (ia_end a)) ts). { eapply Forall_impl; [|exact I2]. intros t Ht. cbv beta in Ht |- * . (eapply Rle_trans; [exact Ht|exact Hd']) || (eapply Rle_lt_trans; [exact Ht|exact Hd1']). }
      split; [|split].
      + clear - I1 Hlt. induction I1 as [|x l S IH F]; cbn [app]; [repeat constructor|]. inversion_clear Hlt as [|? ? Hx Hl]. cbv beta in Hx. constructor; [apply IH; assumption|].
        apply Forall_app. split; [exact F|]. constructor; [exact Hx|constructor].
      + apply Forall_app. split; [exact Hlt|]. constructor; [apply Rle_refl|constructor].
      + rewrite removelast_last. eapply Forall_impl; [|exact I2]. intros t Ht. cbv beta in Ht |- * . (eapply Rle_trans; [exact Ht|exact Hd']) || (eapply Rle_lt_trans; [exact Ht|exact Hd1']).
  Qed.
  Lemma end64 (t0 t1 : f64) (x : iattempt f64) (t d : f64) :
    is_finite t1 = true -> Rabs (B2R t0) <= bpow radix2 900 -> Rabs (B2R t1) <= bpow radix2 900 -> is_finite t = true -> B2R t0 <= B2R t -> Bltb t t1 = true -> ok64 d ->
    ia_t x = t -> ia_dt x = clip t1 t d ->
    is_finite (ia_end x) = true /\ B2R (ia_t x) <= B2R (ia_end x) <= B2R t1 + bpow radix2 (-52) * (B2R t1 - B2R t0 + Rabs (B2R t1)) /\ B2R (ia_t x) < B2R t1.
  Proof.
    intros F1 B0 B1 Ft Ht Hlt Hd Ex Ed.
    destruct (step64 t0 t1 F1 (small_big _ B0) (small_big _ B1) t d Ft Ht Hlt (sign_nonneg _ (proj1 Hd) (proj2 Hd))) as (_ & _ & P3 & P4).
    change (if Bltb t1 (Bplus mode_NE t d) then Bminus mode_NE t1 t else d) with (clip t1 t d) in * .
    assert (Ee : ia_end x = Bplus mode_NE t (clip t1 t d)) by (unfold ia_end; rewrite Ex, Ed; reflexivity).
    split; [exact (eq_ind _ (fun z : f64 => is_finite z = true) P3 _ (eq_sym Ee))|]. split.
    - exact (eq_ind _ (fun z : f64 => B2R z <= B2R (ia_end x) <= _) (eq_ind _ (fun z : f64 => B2R t <= B2R z <= _) P4 _ (eq_sym Ee)) _ (eq_sym Ex)).
    - exact (eq_ind _ (fun z : f64 => B2R z < B2R t1) (ltb_lt _ _ Ft F1 Hlt) _ (eq_sym Ex)).
  Qed.
End Chain.

Section Final.
  Context (pw : f64 -> f64 -> f64).
  Let HS := F64Scalar pw.
  Existing Instance HS.
  Lemma irk_times64 (HL : LinAlg f64) (HE : Env f64) (St : Type) (F : functor f64 St) fuel (t0 t1 : f64) y0 opts oo m (dt : f64) w w' sol :
    pow_keeps_sign pw ->
    is_finite t0 = true -> is_finite t1 = true -> Rabs (B2R t0) <= bpow radix2 900 -> Rabs (B2R t1) <= bpow radix2 900 ->
    Bltb t0 t1 = true -> Bltb (B754_zero false) dt = true ->
    irk_odeint fuel F t0 t1 y0 opts oo m dt w = (w', Ok sol) ->
    Forall (fun t => is_finite t = true) (io_t_vals sol) /\ StronglySorted (fun s t => B2R s <= B2R t) (io_t_vals sol) /\
    Forall (fun t => B2R t < B2R t1) (removelast (io_t_vals sol)) /\
    Forall (fun t => B2R t <= B2R t1 + bpow radix2 (-52) * (B2R t1 - B2R t0 + Rabs (B2R t1))) (io_t_vals sol) /\
    (io_status sol = SUCCESS -> store_in_vectors oo = true -> output_interval oo = 1%Z -> B2R t1 <= B2R (last (io_t_vals sol) t0)).
  Proof.
    intros Hpw F0 F1 B0 B1 H01 Hdt Hrun.
    destruct (finished64 pw F t0 t1 Hpw F0 F1 B0 B1 H01 fuel y0 opts oo m dt Hdt _ _ _ Hrun) as (sc & nopts & mo & dw & d2w & Hst & atts & O & A & Fl & _ & E).
    assert (Eacc : ended Accepted (if (io_status sol =? GENERAL_ERROR)%Z then removelast atts else atts) = ended Accepted atts).
    { destruct E as [(E1 & _)|[(E1 & _)|(E1 & _ & _ & _ & _ & _ & a' & a & -> & E2 & _)]]; rewrite E1; try reflexivity.
      rewrite Z.eqb_refl, removelast_last, ended_snoc, E2. cbn. rewrite app_nil_r. reflexivity. }
    destruct A as [A1 A2 A3 A4 A5 A6 A7]. destruct O as [O1 _ _ _ _ _ _ _ _ _ _]. unfold stored in O1. rewrite Eacc in O1.
    set (over := B2R t1 + bpow radix2 (-52) * (B2R t1 - B2R t0 + Rabs (B2R t1))).
    assert (Hall : Forall (fun x => is_finite (ia_end x) = true /\ B2R (ia_t x) <= B2R (ia_end x) <= over /\ B2R (ia_t x) < B2R t1) atts).
    { rewrite Forall_forall in * . intros x Hx. destruct (A2 x Hx) as (s & (X1 & _ & _ & _ & X5 & X6) & C1 & C2 & C3 & C4 & _). apply (end64 pw t0 t1 x (is_t s) (is_dt s)); try assumption. symmetry. exact C1. }
    assert (H01' := ltb_lt _ _ F0 F1 H01).
    assert (Hov : B2R t1 <= over).
    { pose proof (Rabs_pos (B2R t1)). pose proof (bpow_gt_0 radix2 (-52)). assert (0 <= bpow radix2 (-52) * (B2R t1 - B2R t0 + Rabs (B2R t1))) by (apply Rmult_le_pos; lra). unfold over. lra. }
    destruct (chain_sorted64 pw t0 y0 (B2R t1) atts A1) as (S1 & S2 & S3); [eapply Forall_impl; [|exact Hall]; intros x Hx; cbv beta in Hx |- * ; tauto|].
    assert (Hb : Forall (fun t => is_finite t = true /\ B2R t <= over) (t0 :: map ia_end (ended Accepted atts))).
    { constructor; [split; [exact F0|lra]|]. rewrite Forall_forall in * . intros t Ht. apply in_map_iff in Ht. destruct Ht as (x & <- & Hx). apply ended_in in Hx. destruct (Hall x (proj1 Hx)). tauto. }
    rewrite O1. destruct (store_in_vectors oo) eqn:Es.
    - assert (Hb' : Forall (fun t => is_finite t = true /\ B2R t <= over) (t0 :: map ia_end (every (output_interval oo) (ended Accepted atts)))).
      { rewrite Forall_forall in * . intros t [<-|Ht]; [apply Hb; left; reflexivity|]. apply Hb. right. apply in_map_iff in Ht. destruct Ht as (x & <- & Hx). apply in_map, (every_in _ _ _ Hx). }
      split; [eapply Forall_impl; [|exact Hb']; intros t Ht; apply Ht|]. split; [|split; [|split]].
      + apply StronglySorted_inv in S1. destruct S1 as [S1 S4]. constructor; [apply sorted_every_rel, S1|]. rewrite Forall_forall in * . intros t Ht. apply in_map_iff in Ht. destruct Ht as (x & <- & Hx). apply S4, in_map, (every_in _ _ _ Hx).
      + apply removelast_cons; assumption.
      + eapply Forall_impl; [|exact Hb']; intros t Ht; apply Ht.
      + intros Hok _ Ei. rewrite Ei, every_one. destruct E as [(_ & _ & _ & _ & E5)|[(E1 & _)|(E1 & _)]]; try (rewrite E1 in Hok; discriminate).
        assert (Hi : itime_after t0 atts = last (t0 :: map ia_end (ended Accepted atts)) t0) by (unfold itime_after; destruct (map ia_end (ended Accepted atts)); reflexivity).
        refine (eq_ind _ (fun z : f64 => B2R t1 <= B2R z) _ _ Hi). assert (Hin : In (itime_after t0 atts) (t0 :: map ia_end (ended Accepted atts))) by (unfold itime_after; apply IrkStages.last_in).
        rewrite Forall_forall in Hb. specialize (Hb _ Hin). change (Bltb (itime_after t0 atts) t1 = false) in E5. rewrite Bltb_correct in E5 by (try exact F1; apply Hb).
        destruct (Rlt_bool_spec (B2R (itime_after t0 atts)) (B2R t1)); [discriminate|assumption].
    - cbn [map]. split; [constructor; [exact F0|constructor]|]. split; [repeat constructor|]. split; [constructor|]. split; [constructor; [lra|constructor]|]. intros _ Hx. discriminate.
  Qed.
End Final.

From Verif Require Import Proofs.ErkExamples Proofs.IrkExamples.
Lemma q0' : Rabs (B2R (@sZ f64 ex_S 0)) <= bpow radix2 900.
Proof. rewrite (zero_value : B2R (@sZ f64 ex_S 0) = 0), Rabs_R0. apply bpow_ge_0. Qed.
Lemma q9' : Rabs (B2R (@sZ f64 ex_S 1)) <= bpow radix2 900.
Proof. rewrite (one_value : B2R (@sZ f64 ex_S 1) = 1), Rabs_R1. change 1 with (bpow radix2 0). apply bpow_le. lia. Qed.
Lemma ig_run_eq nd ad ms mi rf m oo : ig_run nd ad ms mi rf m oo =
  @irk_odeint f64 ex_S ig_LA (ex_E nd) _ 60 (logged ig_vdp) (@sZ f64 ex_S 0) (@sZ f64 ex_S 1) [@sZ f64 ex_S 1; @sZ f64 ex_S 1] (ig_opts ad ms mi rf) oo m (@slit f64 ex_S 5 (-1)) (World (tt, []) []).
Proof. reflexivity. Qed.
Lemma irk_times64_use m k w s : ig_run false true (-1) 5 1 m (ig_both 1) = (w, Ok s) -> io_status s = SUCCESS -> length (io_t_vals s) = k ->
  Forall (fun t => is_finite t = true) (io_t_vals s) /\ 1 <= B2R (last (io_t_vals s) (@sZ f64 ex_S 0)).
Proof.
  intros E T1 _. rewrite ig_run_eq in E.
  destruct (irk_times64 ex_pow ig_LA (ex_E false) _ _ _ (@sZ f64 ex_S 0) (@sZ f64 ex_S 1) _ _ _ _ (@slit f64 ex_S 5 (-1)) _ _ _ ex_pow_sign q4 q5 q0' q9' q6 q7 E) as (K1 & _ & _ & _ & K5).
  split; [exact K1|]. specialize (K5 T1 eq_refl eq_refl). rewrite (one_value : B2R (@sZ f64 ex_S 1) = 1) in K5. exact K5.
Qed.
Lemma irk_times64_example : pow_keeps_sign ex_pow /\ exists w s, ig_run false true (-1) 5 1 RADAU_IIA_53 (ig_both 1) = (w, Ok s) /\ io_status s = SUCCESS /\
  length (io_t_vals s) = 6%nat /\ Forall (fun t => is_finite t = true) (io_t_vals s) /\ 1 <= B2R (last (io_t_vals s) (@sZ f64 ex_S 0)).
Proof.
  split; [exact ex_pow_sign|]. destruct ig_runs as (H1 & _). apply ig_summary_ok in H1. destruct H1 as (w & s & E & H). cbv zeta in H. injection H as Hs _ _ _ _ _ Hl _. symmetry in Hs, Hl.
  destruct (irk_times64_use _ 6 w s E Hs Hl) as [K1 K2]. exists w, s. split; [exact E|]. split; [exact Hs|]. split; [exact Hl|]. split; [exact K1|exact K2].
Qed.
