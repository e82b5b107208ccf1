(** A step limit cuts a run and changes nothing else. *)
From Verif Require Import Model.Base Model.Scalar Model.LinAlg Model.Newton Model.Enums Model.Options Model.Coeffs Model.ErkCoeffs Model.Erk Model.IrkCoeffs Model.Irk Model.Multistep.
From Verif Require Import Spec.Prefix Proofs.LoopProofs Proofs.ErkProofs Proofs.IrkProofs Proofs.IrkRun.
Local Open Scope sc_scope.

Lemma ext_refl {A} (l : list A) : extends l l. Proof. exists []. symmetry. apply app_nil_r. Qed.
Lemma ext_app {A} (l m : list A) : extends l (l ++ m). Proof. exists m. reflexivity. Qed.
Lemma ext_trans {A} (a b c : list A) : extends a b -> extends b c -> extends a c.
Proof. intros [x ->] [y ->]. exists (x ++ y). symmetry. apply app_assoc. Qed.

(** ** Output only grows *)
Section Grows.
  Context {T : Type} {St : Type}.
  Local Notation W := (world T St).
  Definition grows {A} (p : M W A) : Prop := forall w, extends (w_out w) (w_out (fst (p w))).
  Lemma grows_ret {A} (a : A) : grows (ret a). Proof. intros w. apply ext_refl. Qed.
  Lemma grows_fail {A} e : grows (A := A) (fail e). Proof. intros w. apply ext_refl. Qed.
  Lemma grows_lift {A} (r : res A) : grows (lift r). Proof. intros w. apply ext_refl. Qed.
  Lemma grows_assert nd b : grows (assert_ nd b). Proof. intros w. destruct nd, b; apply ext_refl. Qed.
  Lemma grows_world {A} (m : M St A) : grows (in_world m). Proof. intros w. unfold in_world. destruct (m (w_st w)). apply ext_refl. Qed.
  Lemma grows_line t y : grows (write_line t y). Proof. intros w. apply ext_app. Qed.
  Lemma grows_bind {A B} (p : M W A) (k : A -> M W B) : grows p -> (forall a, grows (k a)) -> grows (bind p k).
  Proof.
    intros Hp Hk w. unfold bind. specialize (Hp w). destruct (p w) as [w1 [a|e]]; [|exact Hp]. eapply ext_trans; [exact Hp|apply Hk].
  Qed.
  Lemma grows_foldM {A X} (b : X -> A -> M W A) l : (forall x a, grows (b x a)) -> forall a, grows (foldM b l a).
  Proof. intros Hb. induction l as [|x l IH]; intros a; simpl; [apply grows_ret|]. apply grows_bind; auto. Qed.
  Lemma grows_while {S R} (c : S -> bool) (b : S -> M W (S + R)) : (forall s, grows (b s)) -> forall fuel s, grows (while c b fuel s).
  Proof.
    intros Hb. induction fuel as [|f IH]; intros s; cbn [while]; (destruct (c s); [|apply grows_ret]); [apply grows_fail|].
    apply grows_bind; [apply Hb|]. intros [s'|r]; [apply IH|apply grows_ret].
  Qed.
End Grows.
Ltac grow1 := first [apply grows_assert|apply grows_lift|apply grows_world|apply grows_line|apply grows_ret|apply grows_fail
  |apply grows_bind; [|intros ?]|apply grows_foldM; intros ? ?|apply grows_while; intros ?
  |match goal with |- grows (if ?b then _ else _) => destruct b | |- grows (match ?x with _ => _ end) => destruct x end].
Ltac grow := repeat grow1.

(** ** Two loops that agree for a while *)
Section Split.
  Context {W S R : Type} (c1 c2 : S -> bool) (b1 b2 : S -> M W (S + R)) (D : S -> Prop).
  Hypothesis same : forall s w, c1 s = true -> c2 s = true /\ (b1 s w = b2 s w \/ D s).
  Lemma loops_split fuel s w :
    while c1 b1 fuel s w = while c2 b2 fuel s w \/
    exists fuel' s' w', while c1 b1 fuel s w = while c1 b1 fuel' s' w' /\ while c2 b2 fuel s w = while c2 b2 fuel' s' w' /\ (c1 s' = false \/ (c1 s' = true /\ D s')).
  Proof.
    revert s w. induction fuel as [|f IH]; intros s w.
    - destruct (c1 s) eqn:E.
      + left. cbn [while]. rewrite E. rewrite (proj1 (same s w E)). reflexivity.
      + right. exists 0%nat, s, w. auto.
    - destruct (c1 s) eqn:E.
      + destruct (same s w E) as [E2 [Hb|Hd]].
        * cbn [while]. rewrite E, E2. unfold bind. rewrite Hb. destruct (b2 s w) as [w1 [[s1|r]|e]]; [|left; reflexivity|left; reflexivity].
          apply IH.
        * right. exists (Datatypes.S f), s, w. auto.
      + right. exists (Datatypes.S f), s, w. auto.
  Qed.
End Split.

Lemma or_bind {W A B} (Q : W * res B -> W * res B -> Prop) (p : M W A) (k1 k2 : A -> M W B) w :
  (forall a w1, k1 a w1 = k2 a w1 \/ Q (k1 a w1) (k2 a w1)) -> bind p k1 w = bind p k2 w \/ Q (bind p k1 w) (bind p k2 w).
Proof. intros H. unfold bind. destruct (p w) as [w1 [a|e]]; [apply H|left; reflexivity]. Qed.

Section Erk.
  Context {T : Type} {HS : Scalar T} {HL : LinAlg T} {HE : Env T} {St : Type} (F : functor T St).
  Local Notation W := (world T St).
  Lemma grows_erk_body t1 opts sc oo mo s : grows (erk_body F t1 opts sc oo mo s).
  Proof. unfold erk_body, erk_stages_loop, erk_stage, erk_control, erk_write. grow. Qed.

  Section Body.
    Variables (t1 : T) (opts : erk_options T) (sc : solver_coeffs T) (oo : output_options) (mo n1 n2 : Z).
    Hypothesis Hn : weaker_limit n1 n2.
    Let o1 := erk_limited opts n1.
    Let o2 := erk_limited opts n2.
    Lemma erk_body_split s (w : W) : ErkProofs.limit_hit o1 s = false -> erk_body F t1 o1 sc oo mo s w = erk_body F t1 o2 sc oo mo s w.
    Proof.
      intros H1. assert (H2 : ErkProofs.limit_hit o2 s = false).
      { unfold ErkProofs.limit_hit in * . cbn in * . destruct Hn as [Ha Hb]. apply andb_false_iff in H1. apply andb_false_iff.
        destruct H1 as [H1|H1]; [apply Z.leb_gt in H1; lia|apply Z.ltb_ge in H1]. destruct Hb; [left; apply Z.leb_gt; lia|right; apply Z.ltb_ge; lia]. }
      unfold ErkProofs.limit_hit in H1, H2. unfold erk_body. rewrite H1, H2. reflexivity.
    Qed.
    Definition erk_after (a b : erk_output T) : Prop := erk_continues a b.
    Lemma erk_after_step s (w w' : W) s' o : erk_after o (es_sol s) -> erk_body F t1 o2 sc oo mo s w = (w', Ok (inl s')) -> erk_after o (es_sol s') /\ (eo_attempt (es_sol s') = S (eo_attempt (es_sol s)))%nat.
    Proof.
      intros (I1 & I2 & I3 & I4 & I5 & I6 & I7) Hb. apply erk_body_inl in Hb. destruct Hb as (v & Ks & evals & dy & yn & err & est & rej & nd & [_ _ _ _ _ _ Hs]).
      cbv zeta in Hs. destruct rej.
      - subst s'. cbn. split; [|reflexivity]. repeat split; try assumption; cbn; lia.
      - destruct Hs as (Ks' & _ & ->). cbn. split; [|reflexivity]. unfold erk_after, erk_continues. cbn.
        repeat split; try (eapply ext_trans; [eassumption|apply ext_app]); lia.
    Qed.
    Lemma erk_limit_loop fuel s (w : W) :
      let c := fun s => es_t s <?. t1 in
      let p1 := while c (erk_body F t1 o1 sc oo mo) fuel s w in
      let p2 := while c (erk_body F t1 o2 sc oo mo) fuel s w in
      p1 = p2 \/ exists w1 r1, p1 = (w1, Ok (inr r1)) /\ eo_status r1 = ERROR_MAX_STEPS_EXCEEDED /\ extends (w_out w1) (w_out (fst p2)) /\
        (forall r, snd p2 = Ok (inr r) -> erk_continues r1 r) /\ (forall s2, snd p2 = Ok (inl s2) -> erk_continues r1 (es_sol s2)).
    Proof.
      intros c p1 p2.
      destruct (loops_split c c (erk_body F t1 o1 sc oo mo) (erk_body F t1 o2 sc oo mo) (fun s => ErkProofs.limit_hit o1 s = true)) with (fuel := fuel) (s := s) (w := w) as [E|(f' & s' & w' & E1 & E2 & Hd)].
      { intros s0 w0 Hc. split; [exact Hc|]. destruct (ErkProofs.limit_hit o1 s0) eqn:E; [right; reflexivity|left; apply erk_body_split, E]. }
      { left. exact E. }
      unfold p1, p2. rewrite E1, E2. destruct Hd as [Hc|[Hc Hl]].
      { left. destruct f'; cbn [while]; rewrite Hc; reflexivity. }
      destruct f' as [|f]; [left; cbn [while]; rewrite Hc; reflexivity|].
      assert (Hstop : forall n, ErkProofs.limit_hit (erk_limited opts n) s' = true -> erk_body F t1 (erk_limited opts n) sc oo mo s' w' =
        (w', Ok (inr (with_status (with_counts (es_sol s') (S (eo_attempt (es_sol s'))) (eo_reject_err (es_sol s')) (eo_fun_evals (es_sol s'))) ERROR_MAX_STEPS_EXCEEDED)))).
      { intros n Hh. unfold ErkProofs.limit_hit in Hh. unfold erk_body. rewrite Hh. reflexivity. }
      set (r1 := with_status _ _) in Hstop.
      destruct (ErkProofs.limit_hit o2 s') eqn:Hl2.
      { left. cbn [while]. rewrite Hc. unfold bind. unfold o1, o2. rewrite !Hstop by assumption. reflexivity. }
      right. exists w', r1. split; [cbn [while]; rewrite Hc; unfold bind, o1; rewrite Hstop by assumption; reflexivity|]. split; [reflexivity|].
      split; [apply (grows_while c (erk_body F t1 o2 sc oo mo)); intros s0; apply grows_erk_body|].
      assert (Hfin : forall w2 x, while c (erk_body F t1 o2 sc oo mo) (S f) s' w' = (w2, Ok x) -> erk_continues r1 (match x with inr r => r | inl s2 => es_sol s2 end)).
      { intros w2 x Hx.
        pose proof (while_inv c (erk_body F t1 o2 sc oo mo) (fun _ st => st = s' \/ erk_after r1 (es_sol st)) (fun _ r => erk_after r1 r) (S f) s' w' w2 x) as HI.
        assert (H0 : erk_after (with_counts (es_sol s') (eo_attempt (es_sol s')) (eo_reject_err (es_sol s')) (eo_fun_evals (es_sol s'))) (es_sol s')).
        { unfold erk_after, erk_continues. cbn. repeat split; try apply ext_refl; lia. }
        assert (K : match x with inl s2 => (s2 = s' \/ erk_after r1 (es_sol s2)) /\ c s2 = false | inr r => erk_after r1 r end).
        { apply HI; [| |left; reflexivity|exact Hx].
          - intros v st v' st' Hi _ Hb. right. destruct Hi as [->|Hi].
            + destruct (erk_after_step _ _ _ _ _ H0 Hb) as (K1 & K2). revert K1 K2. unfold erk_after, erk_continues, r1. cbn. intros (? & ? & ? & ? & ? & ? & ?) K2. repeat split; try assumption; lia.
            + apply (erk_after_step _ _ _ _ _ Hi Hb).
          - intros v st v' r Hi _ Hb. apply erk_body_inr in Hb. destruct Hb as (-> & Hlim & ->). destruct Hi as [->|Hi].
            + congruence.
            + revert Hi. unfold erk_after, erk_continues. cbn. intros (? & ? & ? & ? & ? & ? & ?). repeat split; try assumption; lia. }
        destruct x as [s2|r]; [|exact K]. destruct K as [[->|K] Hc2]; [congruence|exact K]. }
      split.
      - intros r Hr. apply (Hfin (fst (while c (erk_body F t1 o2 sc oo mo) (S f) s' w')) (inr r)). rewrite <- Hr. apply surjective_pairing.
      - intros s2 Hr. apply (Hfin (fst (while c (erk_body F t1 o2 sc oo mo) (S f) s' w')) (inl s2)). rewrite <- Hr. apply surjective_pairing.
    Qed.
  End Body.

  Definition erk_cut (p q : W * res (erk_output T)) : Prop :=
    exists w1 sol1, p = (w1, Ok sol1) /\ eo_status sol1 = ERROR_MAX_STEPS_EXCEEDED /\ extends (w_out w1) (w_out (fst q)) /\
      forall sol2, snd q = Ok sol2 -> erk_continues sol1 sol2.
  Theorem erk_truncated fuel t0 t1 y0 opts oo m dt (w : W) n1 n2 : weaker_limit n1 n2 ->
    let run n := erk_odeint fuel F t0 t1 y0 (erk_limited opts n) oo m dt w in
    run n1 = run n2 \/ erk_cut (run n1) (run n2).
  Proof.
    intros Hn run. unfold run, erk_odeint. apply or_bind. intros sc w0.
    set (o := if eo_adaptive opts && (length (sc_b2 sc) =? 0)%nat then ErkOptions false (eo_rel_tol opts) (eo_abs_tol opts) (eo_max_dt opts) (eo_max_steps opts) else opts).
    assert (Ho : forall n, (if eo_adaptive (erk_limited opts n) && (length (sc_b2 sc) =? 0)%nat
                then ErkOptions false (eo_rel_tol (erk_limited opts n)) (eo_abs_tol (erk_limited opts n)) (eo_max_dt (erk_limited opts n)) (eo_max_steps (erk_limited opts n))
                else erk_limited opts n) = erk_limited o n).
    { intros n. unfold o. cbn. destruct (eo_adaptive opts && _); reflexivity. }
    cbv zeta. rewrite !Ho. apply or_bind. intros _ w3. unfold erk_guts. apply or_bind. intros _ w4. apply or_bind. intros mo w5. apply or_bind. intros [Ks sol] w6.
    match goal with |- context [while _ _ fuel ?st] => pose proof (erk_limit_loop t1 o sc oo mo n1 n2 Hn fuel st w6) as H; set (s0 := st) in * end.
    cbv zeta in H. destruct H as [H|(w1 & r1 & H1 & H2 & H3 & H4 & H5)]; [left; unfold bind; rewrite H; reflexivity|]. right.
    unfold bind. rewrite H1. exists w1, r1. split; [reflexivity|]. split; [exact H2|]. revert H3 H4 H5.
    destruct (while _ (erk_body F t1 (erk_limited o n2) sc oo mo) fuel s0 w6) as [w2 [[s2|r]|e]]; cbn [fst snd]; intros H3 H4 H5; (split; [exact H3|]); intros sol2; cbn; intros [= <-].
    - destruct (H5 _ eq_refl) as (? & ? & ? & ? & ? & ? & ?). repeat split; assumption.
    - apply H4. reflexivity.
  Qed.
End Erk.

Section Irk.
  Context {T : Type} {HS : Scalar T} {HL : LinAlg T} {HE : Env T} {St : Type} (F : functor T St).
  Local Notation W := (world T St).
  Lemma grows_irk_body t1 opts sc oo nopts mo dw d2w s : grows (irk_body F t1 opts sc oo nopts mo dw d2w s).
  Proof. unfold irk_body, newton_solve_stages, stage_body, construct_R, refresh_jacobi_matrix, irk_estimate, irk_record. grow. Qed.
  Section Body.
    Variables (t1 : T) (opts : irk_options T) (sc : solver_coeffs T) (oo : output_options) (nopts : options T) (mo : Z) (dw d2w : list T) (n1 n2 : Z).
    Hypothesis Hn : weaker_limit n1 n2.
    Let o1 := irk_limited opts n1.
    Let o2 := irk_limited opts n2.
    Let b1 : irk_state T -> M W (irk_state T + irk_output T) := irk_body F t1 o1 sc oo nopts mo dw d2w.
    Let b2 : irk_state T -> M W (irk_state T + irk_output T) := irk_body F t1 o2 sc oo nopts mo dw d2w.
    Lemma irk_body_split s (w : W) : limit_hit o1 s = false -> b1 s w = b2 s w.
    Proof.
      intros H1. assert (H2 : limit_hit o2 s = false).
      { unfold limit_hit in * . cbn in * . destruct Hn as [Ha Hb]. apply andb_false_iff in H1. apply andb_false_iff.
        destruct H1 as [H1|H1]; [apply Z.leb_gt in H1; lia|apply Z.ltb_ge in H1]. destruct Hb; [left; apply Z.leb_gt; lia|right; apply Z.ltb_ge; lia]. }
      unfold limit_hit in H1, H2. unfold b1, b2, irk_body. rewrite H1, H2. reflexivity.
    Qed.
    Lemma irk_record_continues o sol step t yn est err (w w' : W) sol' : irk_continues o sol -> irk_record sc oo sol step t yn est err w = (w', Ok sol') -> irk_continues o sol' /\ io_count sol' = io_count sol.
    Proof.
      intros Ho. unfold irk_record. destruct (_ =? 0)%Z; [discriminate|]. destruct (Z.rem _ _ =? 0)%Z.
      - intros Hr. apply bind_ok in Hr. destruct Hr as (v & u & _ & Hr). apply ret_ok in Hr. destruct Hr as [-> <-]. destruct (store_in_vectors oo); [|auto].
        split; [|reflexivity]. destruct Ho as (I1 & I2 & I3 & I4 & I5 & I6 & I7 & I8 & I9). unfold irk_continues. cbn.
        repeat split; try assumption; (eapply ext_trans; [eassumption|apply ext_app]).
      - intros Hr. apply ret_ok in Hr. destruct Hr as [_ <-]. auto.
    Qed.
    Lemma irk_step_continues s (w w' : W) x o : irk_continues o (is_sol s) -> b2 s w = (w', Ok x) ->
      let r := match x with inl s' => is_sol s' | inr r => r end in irk_continues o r /\ ct_attempt (io_count r) = S (ct_attempt (io_count (is_sol s))).
    Proof.
      intros Ho Hb. apply irk_body_inv in Hb. destruct Ho as (I1 & I2 & I3 & I4 & I5 & I6 & I7 & I8 & I9).
      inversion Hb as [El c EQw EQs|w1 sr El Ead c Hss Hst EQw EQs|w1 sr maxit relax El Ead c d Hss Hst' Hm isk EQw EQs|w1 sr w2 yn est calls err nd El Ead c d Hss Hst' Hem Hgt Hnd EQw EQs|
        w1 sr w2 yn est calls err nd w3 sol El c d Hss Hst' Hem Hgt Hnd Hrec nd' EQw EQs]; subst x; subst c; cbn [is_sol].
      1-4: split; [|reflexivity]; unfold irk_continues; cbn; repeat split; try assumption; lia.
      match type of Hrec with irk_record _ _ ?so _ _ _ _ _ _ = _ => destruct (irk_record_continues o so _ _ _ _ _ _ _ _ ltac:(unfold irk_continues; cbn; repeat split; try assumption; lia) Hrec) as (K1 & K2) end.
      split; [exact K1|]. rewrite K2. reflexivity.
    Qed.
    Lemma irk_limit_loop fuel s (w : W) :
      let c := fun s => is_t s <?. t1 in
      let p1 := while c b1 fuel s w in
      let p2 := while c b2 fuel s w in
      p1 = p2 \/ exists w1 r1, p1 = (w1, Ok (inr r1)) /\ io_status r1 = ERROR_MAX_STEPS_EXCEEDED /\ extends (w_out w1) (w_out (fst p2)) /\
        (forall r, snd p2 = Ok (inr r) -> irk_continues r1 r) /\ (forall s2, snd p2 = Ok (inl s2) -> irk_continues r1 (is_sol s2)).
    Proof.
      intros c p1 p2.
      destruct (loops_split c c b1 b2 (fun s => limit_hit o1 s = true)) with (fuel := fuel) (s := s) (w := w) as [E|(f' & s' & w' & E1 & E2 & Hd)].
      { intros s0 w0 Hc. split; [exact Hc|]. destruct (limit_hit o1 s0) eqn:E; [right; reflexivity|left; apply irk_body_split, E]. }
      { left. exact E. }
      unfold p1, p2. rewrite E1, E2. destruct Hd as [Hc|[Hc Hl]].
      { left. destruct f'; cbn [while]; rewrite Hc; reflexivity. }
      destruct f' as [|f]; [left; cbn [while]; rewrite Hc; reflexivity|].
      assert (Hstop : exists r1, io_status r1 = ERROR_MAX_STEPS_EXCEEDED /\ (forall r, irk_continues (is_sol s') r -> ct_attempt (io_count r) >= S (ct_attempt (io_count (is_sol s'))) -> irk_continues r1 r) /\
        forall n, limit_hit (irk_limited opts n) s' = true -> irk_body F t1 (irk_limited opts n) sc oo nopts mo dw d2w s' w' = (w', Ok (inr r1))).
      { eexists. split; [|split; [|intros n Hh; unfold limit_hit in Hh; unfold irk_body; rewrite Hh; reflexivity]]; [reflexivity|].
        intros r (I1 & I2 & I3 & I4 & I5 & I6 & I7 & I8 & I9) Ha. unfold irk_continues. cbn. repeat split; try assumption; lia. }
      destruct Hstop as (r1 & R1 & R2 & Hstop).
      destruct (limit_hit o2 s') eqn:Hl2.
      { left. cbn [while]. rewrite Hc. unfold bind. unfold b1, b2, o1, o2. rewrite !Hstop by assumption. reflexivity. }
      right. exists w', r1. split; [cbn [while]; rewrite Hc; unfold bind, b1, o1; rewrite Hstop by assumption; reflexivity|]. split; [exact R1|].
      split; [apply (grows_while c b2); intros s0; apply grows_irk_body|].
      assert (H0 : irk_continues (is_sol s') (is_sol s')) by (unfold irk_continues; repeat split; try apply ext_refl; lia).
      assert (Hfin : forall w2 x, while c b2 (S f) s' w' = (w2, Ok x) -> irk_continues r1 (match x with inr r => r | inl s2 => is_sol s2 end)).
      { intros w2 x Hx.
        assert (K : match x with inl s2 => (s2 = s' \/ irk_continues r1 (is_sol s2)) /\ c s2 = false | inr r => irk_continues r1 r end).
        { apply (while_inv c b2 (fun _ st => st = s' \/ irk_continues r1 (is_sol st)) (fun _ r => irk_continues r1 r) (S f) s' w' w2 x); [| |left; reflexivity|exact Hx].
          - intros v st v' st' Hi _ Hb. right. destruct Hi as [->|Hi].
            + destruct (irk_step_continues _ _ _ _ _ H0 Hb) as (K1 & K2). apply R2; [exact K1|]. rewrite K2. lia.
            + apply (irk_step_continues _ _ _ _ _ Hi Hb).
          - intros v st v' r Hi _ Hb. destruct Hi as [->|Hi].
            + destruct (irk_step_continues _ _ _ _ _ H0 Hb) as (K1 & K2). apply R2; [exact K1|]. rewrite K2. lia.
            + apply (irk_step_continues _ _ _ _ _ Hi Hb). }
        destruct x as [s2|r]; [|exact K]. destruct K as [[->|K] Hc2]; [congruence|exact K]. }
      split.
      - intros r Hr. apply (Hfin (fst (while c b2 (S f) s' w')) (inr r)). rewrite <- Hr. apply surjective_pairing.
      - intros s2 Hr. apply (Hfin (fst (while c b2 (S f) s' w')) (inl s2)). rewrite <- Hr. apply surjective_pairing.
    Qed.
  End Body.
  Definition irk_cut (p q : W * res (irk_output T)) : Prop :=
    exists w1 sol1, p = (w1, Ok sol1) /\ io_status sol1 = ERROR_MAX_STEPS_EXCEEDED /\ extends (w_out w1) (w_out (fst q)) /\
      forall sol2, snd q = Ok sol2 -> irk_continues sol1 sol2.
  Theorem irk_truncated fuel t0 t1 y0 opts oo m dt (w : W) n1 n2 : weaker_limit n1 n2 ->
    let run n := irk_odeint fuel F t0 t1 y0 (irk_limited opts n) oo m dt w in
    run n1 = run n2 \/ irk_cut (run n1) (run n2).
  Proof.
    intros Hn run. unfold run, irk_odeint. apply or_bind. intros sc w0.
    set (o := if io_adaptive opts && (length (sc_b2 sc) =? 0)%nat then IrkOptions false (io_rel_tol opts) (io_abs_tol opts) (io_max_dt opts) (io_max_steps opts) (io_newton opts) else opts).
    assert (Ho : forall n, (if io_adaptive (irk_limited opts n) && (length (sc_b2 sc) =? 0)%nat
                then IrkOptions false (io_rel_tol (irk_limited opts n)) (io_abs_tol (irk_limited opts n)) (io_max_dt (irk_limited opts n)) (io_max_steps (irk_limited opts n)) (io_newton (irk_limited opts n))
                else irk_limited opts n) = irk_limited o n).
    { intros n. unfold o. cbn. destruct (io_adaptive opts && _); reflexivity. }
    cbv zeta. rewrite !Ho. apply or_bind. intros _ w3. unfold irk_guts. apply or_bind. intros _ w4. apply or_bind. intros _ w5.
    apply or_bind. intros nopts w6. apply or_bind. intros mo w7. apply or_bind. intros Ai w8. apply or_bind. intros dw w9. apply or_bind. intros d2w w10.
    match goal with |- context [while _ _ fuel ?st] => pose proof (irk_limit_loop t1 o sc oo nopts mo dw d2w n1 n2 Hn fuel st w10) as H; set (s0 := st) in * end.
    cbv zeta in H. destruct H as [H|(w1 & r1 & H1 & H2 & H3 & H4 & H5)]; [left; unfold bind; rewrite H; reflexivity|]. right.
    unfold bind. rewrite H1. exists w1, r1. split; [reflexivity|]. split; [exact H2|]. revert H3 H4 H5.
    destruct (while _ (irk_body F t1 (irk_limited o n2) sc oo nopts mo dw d2w) fuel s0 w10) as [w2 [[s2|r]|e]]; cbn [fst snd]; intros H3 H4 H5; (split; [exact H3|]); intros sol2; cbn; intros [= <-].
    - destruct (H5 _ eq_refl) as (? & ? & ? & ? & ? & ? & ? & ? & ?). repeat split; assumption.
    - apply H4. reflexivity.
  Qed.
End Irk.
