(** Translating time (C34). *)
From Coq Require Import Reals Lra.
From Verif Require Import Model.Base Model.Scalar Model.LinAlg Model.Enums Model.Options Model.Coeffs Model.ErkCoeffs Model.Erk.
From Verif Require Import Spec.Shift Proofs.LoopProofs Proofs.RelProofs Proofs.ErkProofs Proofs.ErkReal.
Local Open Scope R_scope.

Section Shift.
  Context {E : Env R} {LA : LinAlg R} {St : Type}.
  Local Notation W := (world R St).
  Variables (s : R) (F : functor R St).
  (** the file contents appended since the start *)
  Variables (o1 o2 : list (R * list R)).
  Definition wrel (w1 w2 : W) : Prop := w_st w1 = w_st w2 /\ exists l, w_out w1 = o1 ++ shift_lines s l /\ w_out w2 = o2 ++ l.

  Definition sol_rel (a b : erk_output R) : Prop :=
    a = ErkOutput (eo_status b) (map (fun t => t + s) (eo_t_vals b)) (eo_y_vals b) (eo_stages b) (eo_err_est b) (eo_err b)
          (eo_elapsed_time b) (eo_accept_frac b) (eo_attempt b) (eo_reject_err b) (eo_fun_evals b).
  Definition state_rel (a b : erk_state R) : Prop :=
    es_t a = es_t b + s /\ es_y a = es_y b /\ es_dt a = es_dt b /\ es_step a = es_step b /\ es_Ks a = es_Ks b /\ es_err a = es_err b /\
    es_err_est a = es_err_est b /\ sol_rel (es_sol a) (es_sol b).

  Lemma Rltb_shift a b : Rltb (a + s) (b + s) = Rltb a b.
  Proof. unfold Rltb. destruct (Rlt_dec (a + s) (b + s)), (Rlt_dec a b); try reflexivity; exfalso; lra. Qed.
  Lemma mrel_fun t1 t2 y : t1 = t2 + s -> mrel wrel eq (in_world (T := R) (f_fun F t1 y)) (in_world (f_fun (shift_functor s F) t2 y)).
  Proof.
    intros -> w1 w2 (H1 & l & H2 & H3). unfold in_world. simpl. rewrite H1.
    destruct (f_fun F (t2 + s) y (w_st w2)) as [s' [v|e]]; (split; [split; [reflexivity|]|reflexivity]); exists l; auto.
  Qed.

  Lemma stages_rel sc t1 t2 dt y Ks ev : t1 = t2 + s -> mrel wrel eq (erk_stages_loop F sc t1 dt y Ks ev) (erk_stages_loop (shift_functor s F) sc t2 dt y Ks ev).
  Proof.
    intros Ht. unfold erk_stages_loop. apply mrel_foldM; [|reflexivity]. intros i [K e] [? ?] _ [= <- <-]. unfold erk_stage.
    eapply mrel_bind; [apply mrel_lift, rrel_eq; reflexivity|]. intros tmp ? <-.
    eapply mrel_bind; [apply mrel_lift, rrel_eq; reflexivity|]. intros ci ? <-.
    eapply mrel_bind; [apply mrel_fun|]. { rewrite Ht. simpl. ring. } intros k ? <-.
    eapply mrel_bind; [apply mrel_lift, rrel_eq; reflexivity|]. intros K' ? <-. apply mrel_ret. reflexivity.
  Qed.
  Lemma control_rel opts sc mo dt Ks y yn dy : mrel wrel eq (erk_control (St := St) opts sc mo dt Ks y yn dy) (erk_control opts sc mo dt Ks y yn dy).
  Proof.
    unfold erk_control. eapply mrel_bind; [apply mrel_lift, rrel_eq; reflexivity|]. intros ? ? <-.
    eapply mrel_bind; [apply mrel_lift, rrel_eq; reflexivity|]. intros ? ? <-.
    eapply mrel_bind; [apply mrel_lift, rrel_eq; reflexivity|]. intros ? ? <-.
    eapply mrel_bind; [apply mrel_assert; reflexivity|]. intros ? ? _. apply mrel_ret. reflexivity.
  Qed.
  Lemma write_rel oo t1 t2 y : t1 = t2 + s -> mrel wrel eq (erk_write (St := St) oo t1 y) (erk_write oo t2 y).
  Proof.
    intros ->. unfold erk_write. destruct (write_to_file oo); [|apply mrel_ret; reflexivity]. destruct (output_stream oo); [|apply mrel_fail].
    intros w1 w2 (H1 & l & H2 & H3). unfold write_line. split; [|reflexivity]. split; [exact H1|]. exists (l ++ [(t2, y)]). simpl.
    rewrite H2, H3. unfold shift_lines. rewrite map_app, <- !app_assoc. split; reflexivity.
  Qed.

  Lemma body_rel t1 opts sc oo mo s1 s2 : state_rel s1 s2 -> mrel wrel (srel state_rel sol_rel)
    (erk_body F (t1 + s) opts sc oo mo s1) (erk_body (shift_functor s F) t1 opts sc oo mo s2).
  Proof.
    intros (H1 & H2 & H3 & H4 & H5 & H6 & H7 & H8). destruct s1 as [u1 y1 d1 p1 K1 e1 q1 l1], s2 as [u2 y2 d2 p2 K2 e2 q2 l2].
    cbn [es_t es_y es_dt es_step es_Ks es_err es_err_est es_sol] in * . subst y2 d2 p2 K2 e2 q2. unfold erk_body.
    cbn [es_t es_y es_dt es_step es_Ks es_err es_err_est es_sol]. unfold sol_rel in H8.
    assert (Hclip : (if (u1 +. d1 >?. t1 + s)%sc then (t1 + s -. u1)%sc else d1) = (if (u2 +. d1 >?. t1)%sc then (t1 -. u2)%sc else d1)).
    { subst u1. change (sltb (Scalar := RScalar)) with Rltb. cbn [sadd ssub RScalar]. replace (u2 + s + d1) with (u2 + d1 + s) by ring. rewrite Rltb_shift.
      destruct (Rltb t1 (u2 + d1)); [ring|reflexivity]. }
    rewrite Hclip. set (h := if (u2 +. d1 >?. t1)%sc then (t1 -. u2)%sc else d1).
    destruct ((0 <=? eo_max_steps opts)%Z && (eo_max_steps opts <? p1)%Z).
    { apply mrel_ret. rewrite H8. reflexivity. }
    assert (He : eo_fun_evals l1 = eo_fun_evals l2) by (rewrite H8; reflexivity).
    eapply mrel_bind; [rewrite He; apply stages_rel; exact H1|]. intros [Ks ev] ? <-.
    eapply mrel_bind; [apply mrel_lift, rrel_eq; reflexivity|]. intros dy ? <-.
    eapply mrel_bind; [apply mrel_lift, rrel_eq; reflexivity|]. intros yn ? <-.
    eapply mrel_bind with (R := eq).
    { destruct (eo_adaptive opts); [apply control_rel|apply mrel_ret; reflexivity]. }
    intros [[[err est] rej] nd] ? <-.
    eapply mrel_bind; [apply write_rel; exact H1|]. intros ? ? _. destruct rej.
    - apply mrel_ret. simpl. repeat split; try assumption. rewrite H8. reflexivity.
    - eapply mrel_bind; [apply mrel_lift, rrel_eq; reflexivity|]. intros K' ? <-. apply mrel_ret. simpl.
      assert (Ht' : u1 + h = u2 + h + s) by (rewrite H1; ring). repeat split; try assumption.
      unfold sol_rel. rewrite H8. simpl. rewrite map_app. simpl. rewrite Ht'. reflexivity.
  Qed.
  Lemma guts_rel t0 t1 opts sc oo fuel y0 dt : mrel wrel sol_rel
    (erk_guts F (t1 + s) opts sc oo fuel (t0 + s) y0 dt) (erk_guts (shift_functor s F) t1 opts sc oo fuel t0 y0 dt).
  Proof.
    unfold erk_guts.
    assert (Hclip : (if (t0 + s +. dt >?. t1 + s)%sc then (t1 + s -. (t0 + s))%sc else dt) = (if (t0 +. dt >?. t1)%sc then (t1 -. t0)%sc else dt)).
    { change (sltb (Scalar := RScalar)) with Rltb. cbn [sadd ssub RScalar]. replace (t0 + s + dt) with (t0 + dt + s) by ring. rewrite Rltb_shift.
      destruct (Rltb t1 (t0 + dt)); [ring|reflexivity]. }
    rewrite Hclip. eapply mrel_bind; [apply mrel_assert; reflexivity|]. intros ? ? _.
    eapply mrel_bind; [apply mrel_lift, rrel_eq; reflexivity|]. intros mo ? <-.
    set (Kj := mtab (length y0) (length (sc_b sc)) (fun _ _ => junk)).
    eapply mrel_bind with (R := fun a b => fst a = fst b /\ sol_rel (snd a) (snd b)).
    { destruct (sc_FSAL sc).
      - eapply mrel_bind; [apply mrel_fun; reflexivity|]. intros k ? <-. eapply mrel_bind; [apply mrel_lift, rrel_eq; reflexivity|]. intros K ? <-.
        apply mrel_ret. split; reflexivity.
      - apply mrel_ret. split; reflexivity. }
    intros [K1 l1] [K2 l2] [HK Hl]. simpl in HK, Hl. subst K2.
    eapply mrel_bind with (R := srel state_rel sol_rel).
    { apply mrel_while.
      - intros s1 s2 (Ht & _). rewrite Ht. change (sltb (Scalar := RScalar)) with Rltb. apply Rltb_shift.
      - intros s1 s2 Hs _. apply body_rel, Hs.
      - repeat split. exact Hl. }
    intros [x1|x1] [x2|x2] Hx; simpl in Hx; try contradiction; apply mrel_ret; [|exact Hx].
    destruct Hx as (_ & _ & _ & H4 & _ & _ & _ & H8). unfold sol_rel in * . rewrite H4, H8. reflexivity.
  Qed.
  Lemma odeint_rel t0 t1 opts oo m fuel y0 dt : mrel wrel sol_rel
    (erk_odeint fuel F (t0 + s) (t1 + s) y0 opts oo m dt) (erk_odeint fuel (shift_functor s F) t0 t1 y0 opts oo m dt).
  Proof.
    unfold erk_odeint. eapply mrel_bind; [apply mrel_lift, rrel_eq; reflexivity|]. intros sc ? <-.
    eapply mrel_bind; [apply mrel_assert; reflexivity|]. intros ? ? _. apply guts_rel.
  Qed.
End Shift.

Lemma erk_shift {E : Env R} {LA : LinAlg R} {St} (s : R) (F : functor R St) fuel t0 t1 y0 opts oo m dt st :
  match erk_odeint fuel F (t0 + s) (t1 + s) y0 opts oo m dt (World st []), erk_odeint fuel (shift_functor s F) t0 t1 y0 opts oo m dt (World st []) with
  | (w1, Ok a), (w2, Ok b) =>
      eo_t_vals a = map (fun t => t + s) (eo_t_vals b) /\ eo_y_vals a = eo_y_vals b /\ eo_stages a = eo_stages b /\
      eo_err_est a = eo_err_est b /\ eo_err a = eo_err b /\ eo_status a = eo_status b /\ eo_attempt a = eo_attempt b /\
      eo_reject_err a = eo_reject_err b /\ eo_fun_evals a = eo_fun_evals b /\
      w_st w1 = w_st w2 /\ w_out w1 = shift_lines s (w_out w2)
  | (w1, Err e1), (w2, Err e2) => e1 = e2 /\ w_st w1 = w_st w2 /\ w_out w1 = shift_lines s (w_out w2)
  | _, _ => False
  end.
Proof.
  assert (Hw : wrel (St := St) s [] [] (World st []) (World st [])) by (split; [reflexivity|exists []; split; reflexivity]).
  pose proof (odeint_rel s F [] [] t0 t1 opts oo m fuel y0 dt _ _ Hw) as H.
  destruct (erk_odeint fuel F (t0 + s) (t1 + s) y0 opts oo m dt (World st [])) as [w1 [a|e1]],
    (erk_odeint fuel (shift_functor s F) t0 t1 y0 opts oo m dt (World st [])) as [w2 [b|e2]]; try contradiction.
  - destruct H as ((H1 & l & H2 & H3) & H4). unfold sol_rel in H4. rewrite H4. simpl in * . rewrite H2, H3. repeat split. exact H1.
  - destruct H as ((H1 & l & H2 & H3) & H4). simpl in * . rewrite H2, H3. auto.
Qed.
