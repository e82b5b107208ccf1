(** The final time only decides when a multistep run stops (C121). *)
From Verif Require Import Model.Base Model.Scalar Model.LinAlg Model.CyclicBuffer Model.Newton Model.Enums Model.Options Model.Coeffs Model.Irk Model.Multistep.
From Verif Require Import Spec.Prefix Proofs.LoopProofs Proofs.ErkProofs Proofs.Truncate.
Local Open Scope sc_scope.

Section Ms.
  Context {T : Type} {HS : Scalar T} {HL : LinAlg T} {HE : Env T} {St : Type} (F : functor T St).
  Local Notation W := (world T St).
  Section Loop.
    Variables (body : ms_state T -> M W (ms_state T + basic_output T)) (t1 t2 : T).
    Hypothesis later : forall t, (t <?. t1) = true -> (t <?. t2) = true.
    Hypothesis body_ok : forall s w w' x, body s w = (w', Ok x) ->
      match x with
      | inl s' => extends (ms_ts s) (ms_ts s') /\ extends (ms_ys s) (ms_ys s')
      | inr r => extends (ms_ts s) (bo_t_vals r) /\ extends (ms_ys s) (bo_y_vals r)
      end.
    Definition ms_finish (r : ms_state T + basic_output T) : M W (basic_output T) :=
      match r with inl s => ret (BasicOutput SUCCESS (ms_ts s) (ms_ys s)) | inr out => ret out end.
    Definition ms_cut (p q : W * res (basic_output T)) : Prop :=
      exists w1 sol1, p = (w1, Ok sol1) /\ bo_status sol1 = SUCCESS /\ forall sol2, snd q = Ok sol2 -> basic_continues sol1 sol2.
    Lemma ms_loop fuel s (w : W) :
      let p t := bind (while (fun s => ms_t s <?. t) body fuel s) ms_finish w in
      p t1 = p t2 \/ ms_cut (p t1) (p t2).
    Proof.
      intros p. unfold p, bind.
      destruct (loops_split (fun s => ms_t s <?. t1) (fun s => ms_t s <?. t2) body body (fun _ => False)) with (fuel := fuel) (s := s) (w := w) as [E|(f' & s' & w' & E1 & E2 & [Hc|[_ []]])].
      { intros s0 w0 Hc. split; [apply later, Hc|left; reflexivity]. }
      { left. rewrite E. reflexivity. }
      rewrite E1, E2. right.
      assert (Hs : while (fun s => ms_t s <?. t1) body f' s' w' = (w', Ok (inl s'))) by (destruct f'; cbn [while]; rewrite Hc; reflexivity).
      rewrite Hs. exists w', (BasicOutput SUCCESS (ms_ts s') (ms_ys s')). split; [reflexivity|]. split; [reflexivity|]. intros sol2.
      destruct (while (fun s => ms_t s <?. t2) body f' s' w') as [w2 [x|e]] eqn:Hx; [|discriminate].
      assert (K : match x with
                  | inl s2 => (extends (ms_ts s') (ms_ts s2) /\ extends (ms_ys s') (ms_ys s2)) /\ (ms_t s2 <?. t2) = false
                  | inr r => extends (ms_ts s') (bo_t_vals r) /\ extends (ms_ys s') (bo_y_vals r) end).
      { apply (while_inv (fun s => ms_t s <?. t2) body (fun _ st => extends (ms_ts s') (ms_ts st) /\ extends (ms_ys s') (ms_ys st))
          (fun _ r => extends (ms_ts s') (bo_t_vals r) /\ extends (ms_ys s') (bo_y_vals r)) f' s' w' w2 x); [| |split; apply ext_refl|exact Hx].
        - intros v st v' st' [I1 I2] _ Hb. apply body_ok in Hb. destruct Hb. split; eapply ext_trans; eassumption.
        - intros v st v' r [I1 I2] _ Hb. apply body_ok in Hb. destruct Hb. split; eapply ext_trans; eassumption. }
      destruct x as [s2|r]; cbn; intros [= <-]; [apply (proj1 K)|exact K].
    Qed.
  End Loop.
  Lemma ab_body_grows order dt s w w' x : ab_body F order dt s w = (w', Ok x) ->
    match x with
    | inl s' => extends (ms_ts s) (ms_ts s') /\ extends (ms_ys s) (ms_ys s')
    | inr r => extends (ms_ts s) (bo_t_vals r) /\ extends (ms_ys s) (bo_y_vals r)
    end.
  Proof.
    unfold ab_body. intros Hb. apply bind_ok in Hb. destruct Hb as (y & w1 & _ & Hb). apply bind_ok in Hb. destruct Hb as (h & w2 & _ & Hb).
    apply ret_ok in Hb. destruct Hb as [_ <-]. cbn. split; apply ext_app.
  Qed.
  Lemma bdf_body_grows order n dt s w w' x : bdf_body F order n dt s w = (w', Ok x) ->
    match x with
    | inl s' => extends (ms_ts s) (ms_ts s') /\ extends (ms_ys s) (ms_ys s')
    | inr r => extends (ms_ts s) (bo_t_vals r) /\ extends (ms_ys s) (bo_y_vals r)
    end.
  Proof.
    unfold bdf_body. intros Hb. apply bind_ok in Hb. destruct Hb as (y & w1 & _ & Hb). apply bind_ok in Hb. destruct Hb as (w2 & [[yn st] q] & _ & Hb).
    destruct (negb _).
    - apply ret_ok in Hb. destruct Hb as [_ <-]. cbn. split; apply ext_refl.
    - apply bind_ok in Hb. destruct Hb as (h & w3 & _ & Hb). apply ret_ok in Hb. destruct Hb as [_ <-]. cbn. split; apply ext_app.
  Qed.
  Section Run.
    Variables (t0 t1 t2 dt : T).
    Hypothesis later : forall t, (t <?. t1) = true -> (t <?. t2) = true.
    Hypotheses (Hd1 : (t0 +. dt >?. t1) = false) (Hd2 : (t0 +. dt >?. t2) = false).
    Lemma ab_truncated fuel y0 order (w : W) :
      let run t := adams_bashforth fuel F t0 t y0 order dt w in run t1 = run t2 \/ ms_cut (run t1) (run t2).
    Proof.
      intros run. unfold run, adams_bashforth. rewrite Hd1, Hd2. cbv zeta. apply or_bind. intros _ w1. apply or_bind. intros hist w2. apply or_bind. intros hs w3.
      apply or_bind. intros [[t y] h] w4. apply (ms_loop _ t1 t2 later). intros s0 u u' x. apply ab_body_grows.
    Qed.
    Lemma bdf_truncated fuel y0 order (w : W) :
      let run t := bdf fuel F t0 t y0 order dt w in run t1 = run t2 \/ ms_cut (run t1) (run t2).
    Proof.
      intros run. unfold run, bdf. rewrite Hd1, Hd2. destruct (order >? 6)%Z; [left; reflexivity|]. destruct (order <=? 0)%Z; [left; reflexivity|].
      cbv zeta. apply or_bind. intros _ w1. apply or_bind. intros hist w2. apply or_bind. intros hs w3.
      apply or_bind. intros [[t y] h] w4. apply (ms_loop _ t1 t2 later). intros s0 u u' x. apply bdf_body_grows.
    Qed.
  End Run.
End Ms.
