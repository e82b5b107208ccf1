(** The command line of the example program. *)
From Coq Require Import String.
From Verif Require Import Model.Base Model.Scalar Model.LinAlg Model.Examples Spec.ExamplesSpec.
Local Open Scope string_scope.

Section Parse.
  Context {T : Type} `{Scalar T}.
  Variables (stof : string -> option T) (stoi : string -> option Z).
  Notation parse := (parse_opts stof stoi).
  Notation readable := (readable stof stoi).
  Definition apply (s : setting) (o : user_options T) : user_options T :=
    match s with
    | SEquation v => set_eq o v
    | SMethod v => set_method o v
    | SSpan v v2 => match stof v, stof v2 with Some x, Some y => set_span o x y | _, _ => o end
    | SDt v => match stof v with Some x => set_dt o x | _ => o end
    | SRelTol v => match stof v with Some x => set_rel_tol o x | _ => o end
    | SAbsTol v => match stof v with Some x => set_abs_tol o x | _ => o end
    | SInterval v => match stoi v with Some x => set_out_interval o x | _ => o end
    | STiming v => match stoi v with Some x => set_time_internals o (x =? 1)%Z | _ => o end
    | SFile v => set_output_fname o v
    end.
  Lemma parse_setting s rest o : readable s -> parse (words s ++ rest) o = parse rest (apply s o).
  Proof.
    destruct s; cbn [words app parse_opts readable apply]; intros Hr.
    all: try reflexivity.
    - destruct Hr as [H1 H2]. destruct (stof v); [|contradiction]. destruct (stof v2); [|contradiction]. reflexivity.
    - destruct (stof v); [reflexivity|contradiction].
    - destruct (stof v); [reflexivity|contradiction].
    - destruct (stof v); [reflexivity|contradiction].
    - destruct (stoi v); [reflexivity|contradiction].
    - destruct Hr as [-> | ->]; reflexivity.
  Qed.
  Lemma parse_settings ss rest : forall o, Forall readable ss -> parse (concat (map words ss) ++ rest) o = parse rest (fold_left (fun o s => apply s o) ss o).
  Proof.
    induction ss as [|s ss IH]; intros o Hr; [reflexivity|]. inversion Hr; subst. cbn [map concat fold_left]. rewrite <- app_assoc, parse_setting by assumption. apply IH. assumption.
  Qed.
  Lemma user_options_eta (o : user_options T) : o = UserOptions (u_eq o) (u_method o) (u_t0 o) (u_t1 o) (u_dt o) (u_rel_tol o) (u_abs_tol o) (u_time_internals o) (u_out_interval o) (u_output_fname o).
  Proof. destruct o. reflexivity. Qed.
  Lemma last_value_snoc {A} (f : setting -> option A) d ss s : last_value f d (ss ++ [s]) = match f s with Some x => x | None => last_value f d ss end.
  Proof. unfold last_value. rewrite fold_left_app. reflexivity. Qed.
  Lemma fold_options ss : Forall readable ss -> fold_left (fun o s => apply s o) ss user_default = options_of stof stoi ss.
  Proof.
    induction ss as [|s ss IH] using rev_ind; intros Hr; [reflexivity|]. apply Forall_app in Hr. destruct Hr as [Hr Hs]. inversion Hs as [|? ? Hs' _]; subst. rewrite fold_left_app. cbn [fold_left]. rewrite IH by assumption.
    unfold options_of. rewrite !last_value_snoc. destruct s; cbn [apply readable] in *; try reflexivity.
    - destruct Hs' as [H1 H2]. destruct (stof v); [|contradiction]. destruct (stof v2); [|contradiction]. reflexivity.
    - destruct (stof v); [reflexivity|contradiction].
    - destruct (stof v); [reflexivity|contradiction].
    - destruct (stof v); [reflexivity|contradiction].
    - destruct (stoi v); [reflexivity|contradiction].
    - destruct Hs' as [-> | ->]; reflexivity.
  Qed.
  Lemma parse_accepts ss : Forall readable ss -> parse (concat (map words ss)) user_default = Ok (0%Z, options_of stof stoi ss).
  Proof. intros Hr. rewrite <- (app_nil_r (concat _)), parse_settings by assumption. cbn [parse_opts]. rewrite fold_options by assumption. reflexivity. Qed.

  Definition code (r : res (Z * user_options T)) : res Z := match r with Ok (c, _) => Ok c | Err e => Err e end.
  Lemma parse_stopped rest r : stops stof stoi rest r -> forall o, code (parse rest o) = r.
  Proof.
    intros Hs o. destruct Hs as [a rest Ha|a Ha|v| |v n rest Hv H0 H1|a v rest Ha Hv|v v2 rest Hv|a v rest Ha Hv|a rest Ha]; cbn [In] in * .
    - destruct Ha as [<-|[<-|[]]]; reflexivity.
    - repeat (destruct Ha as [<-|Ha]; [reflexivity|]). destruct Ha.
    - reflexivity.
    - reflexivity.
    - cbn [parse_opts String.eqb Ascii.eqb Bool.eqb orb]. rewrite Hv. cbn [number rbind]. rewrite (proj2 (Z.eqb_neq n 0) H0), (proj2 (Z.eqb_neq n 1) H1). reflexivity.
    - repeat (destruct Ha as [<-|Ha]; [cbn [parse_opts String.eqb Ascii.eqb Bool.eqb orb]; rewrite Hv; reflexivity|]). destruct Ha.
    - cbn [parse_opts String.eqb Ascii.eqb Bool.eqb orb]. destruct Hv as [Hv|Hv]; rewrite Hv; [reflexivity|]. destruct (stof v); reflexivity.
    - repeat (destruct Ha as [<-|Ha]; [cbn [parse_opts String.eqb Ascii.eqb Bool.eqb orb]; rewrite Hv; reflexivity|]). destruct Ha.
    - assert (E : forall x, In x all_options -> (a =? x) = false) by (intros x Hx; apply String.eqb_neq; intros ->; exact (Ha Hx)).
      cbn [parse_opts]. rewrite !E by (unfold all_options; cbn [In]; tauto). reflexivity.
  Qed.
  Lemma parse_stops ss rest r : Forall readable ss -> stops stof stoi rest r -> code (parse (concat (map words ss) ++ rest) user_default) = r.
  Proof. intros Hr Hs. rewrite parse_settings by exact Hr. apply parse_stopped, Hs. Qed.

  Lemma parse_total args : exists ss rest, args = (concat (map words ss) ++ rest)%list /\ Forall readable ss /\ (rest = [] \/ exists r, stops stof stoi rest r).
  Proof.
    remember (List.length args) as n eqn:En. revert args En. induction n as [n IH] using lt_wf_ind. intros args En.
    destruct args as [|a args]; [exists [], []; repeat split; [constructor|left; reflexivity]|].
    assert (Hcons : forall s rest, (a :: args = words s ++ rest)%list -> readable s -> exists ss rest', (a :: args = concat (map words ss) ++ rest')%list /\ Forall readable ss /\ (rest' = [] \/ exists r, stops stof stoi rest' r)).
    { intros s rest E Hr. destruct (IH (List.length rest)) with (args := rest) as (ss & rest' & E' & Hr' & Hs); [|reflexivity|].
      - apply (f_equal (@List.length string)) in E. rewrite app_length in E. assert (0 < List.length (words s))%nat by (destruct s; cbn; lia). cbn [List.length] in * . lia.
      - exists (s :: ss), rest'. split; [rewrite E, E'; cbn [map concat]; apply app_assoc|]. split; [constructor; assumption|exact Hs]. }
    assert (Hstop : forall r, stops stof stoi (a :: args) r -> exists ss rest', (a :: args = concat (map words ss) ++ rest')%list /\ Forall readable ss /\ (rest' = [] \/ exists r, stops stof stoi rest' r)).
    { intros r Hs. exists [], (a :: args). repeat split; [constructor|right; exists r; exact Hs]. }
    destruct (in_dec string_dec a all_options) as [Ha|Ha]; [|apply (Hstop (Ok (-1)%Z)); constructor; exact Ha].
    unfold all_options in Ha. cbn [In] in Ha. destruct Ha as [<-|[<-|[<-|[<-|[<-|[<-|[<-|[<-|[<-|[<-|[<-|[]]]]]]]]]]]].
    - apply (Hstop (Ok 1%Z)). constructor. cbn; tauto.
    - apply (Hstop (Ok 1%Z)). constructor. cbn; tauto.
    - destruct args as [|v args]; [apply (Hstop (Ok (-1)%Z)); constructor; cbn; tauto|]. apply (Hcons (SEquation v) args eq_refl I).
    - destruct args as [|v args]; [apply (Hstop (Ok (-1)%Z)); constructor; cbn; tauto|]. apply (Hcons (SMethod v) args eq_refl I).
    - destruct args as [|v [|v2 args]]; [apply (Hstop (Ok (-1)%Z)); constructor; cbn; tauto|apply (Hstop (Ok (-1)%Z)); apply stop_missing_second|].
      destruct (stof v) eqn:E1; [|apply (Hstop (Err (EThrow ELogic))); apply stop_span; auto]. destruct (stof v2) eqn:E2; [|apply (Hstop (Err (EThrow ELogic))); apply stop_span; auto].
      apply (Hcons (SSpan v v2) args eq_refl). cbn. rewrite E1, E2. split; discriminate.
    - destruct args as [|v args]; [apply (Hstop (Ok (-1)%Z)); constructor; cbn; tauto|]. destruct (stof v) eqn:E1; [|apply (Hstop (Err (EThrow ELogic))); apply stop_number; cbn; auto].
      apply (Hcons (SDt v) args eq_refl). cbn. rewrite E1. discriminate.
    - destruct args as [|v args]; [apply (Hstop (Ok (-1)%Z)); constructor; cbn; tauto|]. destruct (stof v) eqn:E1; [|apply (Hstop (Err (EThrow ELogic))); apply stop_number; cbn; auto].
      apply (Hcons (SRelTol v) args eq_refl). cbn. rewrite E1. discriminate.
    - destruct args as [|v args]; [apply (Hstop (Ok (-1)%Z)); constructor; cbn; tauto|]. destruct (stof v) eqn:E1; [|apply (Hstop (Err (EThrow ELogic))); apply stop_number; cbn; auto].
      apply (Hcons (SAbsTol v) args eq_refl). cbn. rewrite E1. discriminate.
    - destruct args as [|v args]; [apply (Hstop (Err EUB)); constructor|]. destruct (stoi v) eqn:E1; [|apply (Hstop (Err (EThrow ELogic))); apply stop_integer; cbn; auto].
      apply (Hcons (SInterval v) args eq_refl). cbn. rewrite E1. discriminate.
    - destruct args as [|v args]; [apply (Hstop (Ok (-1)%Z)); constructor; cbn; tauto|]. destruct (stoi v) as [n'|] eqn:E1; [|apply (Hstop (Err (EThrow ELogic))); apply stop_integer; cbn; auto].
      destruct (Z.eq_dec n' 0) as [->|N0]; [apply (Hcons (STiming v) args eq_refl); cbn; auto|]. destruct (Z.eq_dec n' 1) as [->|N1]; [apply (Hcons (STiming v) args eq_refl); cbn; auto|].
      apply (Hstop (Ok (-2)%Z)). apply stop_boolean with n'; assumption.
    - destruct args as [|v args]; [apply (Hstop (Ok (-1)%Z)); constructor; cbn; tauto|]. apply (Hcons (SFile v) args eq_refl I).
  Qed.
End Parse.
