(** When the integrators evaluate the right-hand side (C85). *)
From Coq Require Import Reals Lra.
From Verif Require Import Model.Base Model.Scalar Model.LinAlg Model.CyclicBuffer Model.Newton Model.Enums Model.Options Model.Coeffs Model.ErkCoeffs Model.Erk Model.IrkCoeffs Model.Irk Model.Multistep.
From Verif Require Import Spec.Sums Spec.Observe Spec.ErkSpec Spec.Methods Spec.IrkSpec.
From Verif Require Import Proofs.SumsProofs Proofs.LoopProofs Proofs.OrderProofs Proofs.TablesGeneric Proofs.CoeffsProofs Proofs.ErkProofs Proofs.ErkGeneric Proofs.ErkReal Proofs.ErkTimes Proofs.IrkProofs Proofs.IrkRun Proofs.IrkGeneric Proofs.IrkTimes Proofs.Nodes.
Local Open Scope R_scope.

Section Within.
  Context {HL : LinAlg R} {HE : Env R} {St : Type} (F : functor R St).
  Local Notation W := (world R (St * list (call R))).
  (** Whatever the outcome, all calls are at times satisfying P. *)
  Definition within (P : R -> Prop) {A} (p : M W A) : Prop :=
    forall w, exists l, snd (w_st (fst (p w))) = snd (w_st w) ++ l /\ Forall (fun c => P (call_time c)) l.

  Section Rules.
  Variable P : R -> Prop.
  Lemma wi_pure {A} (x : res A) : within P (fun w => (w, x)).
  Proof. intros w. exists []. split; [rewrite app_nil_r; reflexivity|constructor]. Qed.
  Lemma wi_lift {A} (x : res A) : within P (lift x).
  Proof. apply wi_pure. Qed.
  Lemma wi_ret {A} (x : A) : within P (ret x).
  Proof. apply wi_pure. Qed.
  Lemma wi_fail {A} e : within P (A := A) (fail e).
  Proof. apply wi_pure. Qed.
  Lemma wi_assert n b : within P (assert_ n b).
  Proof. unfold assert_. destruct n; [apply wi_ret|]. destruct b; [apply wi_ret|apply wi_fail]. Qed.
  Lemma wi_write t y : within P (write_line t y).
  Proof. intros w. exists []. split; [rewrite app_nil_r; reflexivity|constructor]. Qed.
  Lemma wi_bind_eq {A B} (p : M W A) (k : A -> M W B) : within P p -> (forall w w' a, p w = (w', Ok a) -> within P (k a)) -> within P (bind p k).
  Proof.
    intros Hp Hk w. unfold bind. destruct (Hp w) as (l & H1 & H2). specialize (Hk w). destruct (p w) as [w1 [a|e]]; cbn [fst snd] in * .
    - destruct (Hk w1 a eq_refl w1) as (l' & K1 & K2). exists (l ++ l'). rewrite K1, H1, app_assoc. split; [reflexivity|apply Forall_app; auto].
    - exists l. auto.
  Qed.
  Lemma wi_bind {A B} (p : M W A) (k : A -> M W B) : within P p -> (forall a, within P (k a)) -> within P (bind p k).
  Proof. intros Hp Hk. apply wi_bind_eq; auto. Qed.
  Lemma wi_bind_lift {A B} (x : res A) (k : A -> M W B) : (forall a, x = Ok a -> within P (k a)) -> within P (bind (lift x) k).
  Proof. intros Hk. apply wi_bind_eq; [apply wi_lift|]. intros w w' a H. apply Hk. apply lift_ok in H. apply H. Qed.
  Lemma wi_fun t y : P t -> within P (in_world (f_fun (logged F) t y)).
  Proof.
    intros Ht [[s l] o]. exists [CallFun t y]. unfold in_world. cbn [logged f_fun w_st fst snd w_out].
    destruct (f_fun F t y s) as [s1 r]. cbn [fst snd w_st w_out]. split; [reflexivity|repeat constructor; exact Ht].
  Qed.
  Lemma wi_jac t y : P t -> within P (in_world (f_jac (logged F) t y)).
  Proof.
    intros Ht [[s l] o]. exists [CallJac t y]. unfold in_world. cbn [logged f_jac w_st fst snd w_out].
    destruct (f_jac F t y s) as [s1 r]. cbn [fst snd w_st w_out]. split; [reflexivity|repeat constructor; exact Ht].
  Qed.
  Lemma wi_foldM {A X} (b : X -> A -> M W A) : (forall x a, within P (b x a)) -> forall l a, within P (foldM b l a).
  Proof. intros Hb. induction l as [|x l IH]; intros a; cbn [foldM]; [apply wi_ret|]. apply wi_bind; [apply Hb|apply IH]. Qed.
  Lemma wi_while {S R} (c : S -> bool) (b : S -> M W (S + R)) (I : S -> Prop) :
    (forall s, I s -> c s = true -> within P (b s) /\ forall w w' s', b s w = (w', Ok (inl s')) -> I s') ->
    forall fuel s, I s -> within P (while c b fuel s).
  Proof.
    intros Hb. induction fuel as [|n IH]; intros s Hs; cbn [while]; (destruct (c s) eqn:Ec; [|apply wi_ret]); [apply wi_fail|].
    destruct (Hb s Hs Ec) as [H1 H2]. apply wi_bind_eq; [exact H1|]. intros w w' [s'|r] Hw; [apply IH, (H2 w w'), Hw|apply wi_ret].
  Qed.
  End Rules.
  Lemma wi_weaken (P Q : R -> Prop) {A} (p : M W A) : (forall t, P t -> Q t) -> within P p -> within Q p.
  Proof. intros H Hp w. destruct (Hp w) as (l & H1 & H2). exists l. split; [exact H1|]. eapply Forall_impl; [|exact H2]. intros c Hc. apply H, Hc. Qed.

  Ltac wi1 := first
    [ apply wi_lift | apply wi_ret | apply wi_fail | apply wi_assert | apply wi_write
    | apply wi_bind; [|intros ?] | apply wi_foldM; intros ? ?
    | match goal with |- within _ (if ?b then _ else _) => destruct b
      | |- within _ (match ?x with _ => _ end) => destruct x end | progress cbv zeta ].
  Ltac wi := repeat wi1.

  Lemma vget_range cs i c : Forall (fun c => 0 <= c <= 1) cs -> vget cs i = Ok c -> 0 <= c <= 1.
  Proof. intros Hf Hv. apply (vget_inv _ _ _ 0) in Hv. destruct Hv as [Hi ->]. rewrite Forall_forall in Hf. apply Hf, nth_In, Hi. Qed.

  (** ** The explicit integrator *)
  Lemma wi_erk_stages sc t dt y Ks ev : Forall (fun c => 0 <= c <= 1) (sc_c sc) -> 0 <= dt -> within (fun s => t <= s <= t + dt) (erk_stages_loop (logged F) sc t dt y Ks ev).
  Proof.
    intros Hc Hdt. unfold erk_stages_loop. apply wi_foldM. intros i [K e]. unfold erk_stage. apply wi_bind; [apply wi_lift|intros tmp]. apply wi_bind_lift. intros ci Hci.
    apply vget_range in Hci; [|exact Hc]. apply wi_bind; [apply wi_fun|intros k; wi]. cbn [sadd smul RScalar]. nra.
  Qed.

  Lemma wi_erk fuel t0 t1 y0 opts oo m dt : (ndebug = false \/ (t0 < t1 /\ 0 < dt)) -> within (fun s => t0 <= s <= t1) (erk_odeint fuel (logged F) t0 t1 y0 opts oo m dt).
  Proof.
    intros Hpos. unfold erk_odeint. apply wi_bind_lift. intros sc Hg. cbv zeta. set (opts' := if eo_adaptive opts && _ then _ else _).
    destruct (erk_get_ok (T := R) m) as (sc' & Hg' & Ht & _). rewrite Hg in Hg'. injection Hg' as <-. pose proof (erk_nodes m sc Ht) as Hc.
    apply wi_bind; [apply wi_assert|intros _]. unfold erk_guts. fold (clip t1 t0 dt).
    apply wi_bind_eq; [apply wi_assert|]. intros w w' uu Ha. apply assert_ok in Ha. destruct Ha as [_ Ha].
    assert (Hd : 0 < clip t1 t0 dt).
    { exact (clip_pos t0 t1 dt Hpos Ha). }
    assert (Htt : t0 < t1). { rewrite clip_R in Hd. pose proof (Rmin_r dt (t1 - t0)). lra. }
    apply wi_bind; [apply wi_lift|intros mo].
    apply wi_bind. { destruct (sc_FSAL sc); [|apply wi_ret]. apply wi_bind; [apply wi_fun; lra|intros k; wi]. }
    intros [Ks sol]. apply wi_bind; [|intros [s|s]; apply wi_ret].
    apply wi_while with (I := fun s => t0 <= es_t s /\ 0 < es_dt s); [|simpl; lra].
    intros s [I1 I2] Hlt. apply Rltb_true in Hlt. assert (Hh : 0 < clip t1 (es_t s) (es_dt s)) by (rewrite clip_R; apply Rmin_glb_lt; lra). split.
    - unfold erk_body. fold (clip t1 (es_t s) (es_dt s)). cbv zeta. match goal with |- within _ (if ?b then _ else _) => destruct b end; [apply wi_ret|].
      apply wi_bind.
      + apply wi_weaken with (P := fun u => es_t s <= u <= es_t s + clip t1 (es_t s) (es_dt s)); [|apply wi_erk_stages; [exact Hc|lra]].
        intros u Hu. rewrite clip_R in * . pose proof (Rmin_r (es_dt s) (t1 - es_t s)). lra.
      + intros [Ks' ev]. unfold erk_control, erk_write. wi.
    - intros v v' s' Hb. apply erk_body_inl in Hb. destruct Hb as (w1 & Ks1 & ev & dy & yn & err & est & rej & nd & A).
      pose proof (ap_ctl _ _ _ _ _ _ _ _ _ _ _ _ _ _ _ _ _ _ _ A) as Hct. pose proof (ap_next _ _ _ _ _ _ _ _ _ _ _ _ _ _ _ _ _ _ _ A) as Hnx. cbv zeta in Hnx.
      assert (Hnd : 0 < nd).
      { destruct (eo_adaptive opts').
        - destruct Hct as (da & tot & _ & _ & _ & _ & _ & He & _ & ->). apply err_pos in He. rewrite new_dt_R by exact He.
          assert (0 < clip t1 (es_t s) (es_dt s) * growth mo err) by (apply Rmult_lt_0_compat; [exact Hh|apply growth_pos, He]).
          destruct (Rlt_dec 0 (eo_max_dt opts')); [apply Rmin_glb_lt|]; assumption.
        - destruct Hct as (_ & _ & _ & ->). exact Hh. }
      destruct rej; [rewrite Hnx; simpl; auto|]. destruct Hnx as (Ks' & _ & ->). cbn [es_t es_dt]. cbn [sadd RScalar]. lra.
  Qed.

  (** ** The implicit integrator *)
  Lemma wi_R y t dt sc Y I : Forall (fun c => 0 <= c <= 1) (sc_c sc) -> 0 <= dt -> within (fun s => t <= s <= t + dt) (construct_R (logged F) y t dt sc Y I).
  Proof.
    intros Hc Hdt. unfold construct_R. apply wi_bind; [|intros Fv; wi]. apply wi_foldM. intros i a. apply wi_bind; [apply wi_lift|intros Yi].
    apply wi_bind_lift. intros ci Hci. apply vget_range in Hci; [|exact Hc]. apply wi_bind; [apply wi_lift|intros arg]. apply wi_bind; [apply wi_fun|intros v; wi].
    cbn [sadd smul RScalar]. nra.
  Qed.
  Lemma wi_refresh y t dt sc plu L : 0 <= dt -> within (fun s => t <= s <= t + dt) (refresh_jacobi_matrix (logged F) y t dt sc plu L).
  Proof. intros Hdt. unfold refresh_jacobi_matrix. apply wi_bind; [apply wi_jac; lra|intros J; wi]. Qed.
  Lemma wi_stages y t dt sc ad plu mi rj xt Rt a b : Forall (fun c => 0 <= c <= 1) (sc_c sc) -> 0 <= dt ->
    within (fun s => t <= s <= t + dt) (newton_solve_stages (logged F) y t dt sc ad plu mi rj xt Rt a b).
  Proof.
    intros Hc Hdt. unfold newton_solve_stages. cbv zeta. apply wi_bind; [apply wi_refresh, Hdt|intros [[J JY] L]]. apply wi_bind; [apply wi_R; assumption|intros R0].
    apply wi_bind; [apply wi_lift|intros n2]. apply wi_bind; [|intros [s|[]]; apply wi_ret].
    apply wi_while with (I := fun _ => True); [|exact I]. intros s _ _. split; [|auto]. unfold stage_body.
    apply wi_bind; [apply wi_lift|intros dY]. apply wi_bind; [apply wi_lift|intros x2]. apply wi_bind; [apply wi_lift|intros Y]. apply wi_bind; [apply wi_R; assumption|intros R1].
    cbv zeta. apply wi_bind; [apply wi_lift|intros r2]. destruct (_ || _); [apply wi_ret|]. destruct (_ =? _)%Z; [apply wi_fail|]. destruct (_ =? _)%Z; [|apply wi_ret].
    apply wi_bind; [apply wi_refresh, Hdt|intros [[? ?] ?]; apply wi_ret].
  Qed.
  Lemma wi_estimate opts sc dw d2w t dt y Y J alt : 0 <= dt -> within (fun s => t <= s <= t + dt) (irk_estimate (logged F) opts sc dw d2w t dt y Y J alt).
  Proof. intros Hdt. unfold irk_estimate. repeat first [apply wi_fun; lra|wi1]. Qed.

  Lemma wi_irk fuel t0 t1 y0 opts oo m dt : (ndebug = false \/ (t0 < t1 /\ 0 < dt)) -> within (fun s => t0 <= s <= t1) (irk_odeint fuel (logged F) t0 t1 y0 opts oo m dt).
  Proof.
    intros Hpos. unfold irk_odeint. apply wi_bind_lift. intros sc Hg. cbv zeta. apply wi_bind; [apply wi_assert|intros _].
    destruct (irk_get_ok (T := R) m) as (sc' & Hg' & Ht & Hd). rewrite Hg in Hg'. injection Hg' as <-. pose proof (irk_nodes HE m sc Ht) as Hc.
    unfold irk_guts. fold (clip t1 t0 dt). apply wi_bind; [apply wi_assert|intros _]. apply wi_bind_eq; [apply wi_assert|]. intros w0 w0' u0 Hv. apply assert_ok in Hv. destruct Hv as [_ Hv].
    apply wi_bind_lift. intros nopts Hn. cbv zeta. apply wi_bind_lift. intros mo Hmo. apply wi_bind_lift. intros Ai HAi. apply wi_bind_lift. intros dw Hdw. apply wi_bind_lift. intros d2w Hd2w.
    destruct (dims_of sc _ Hd) as (L1 & L2 & L3 & L4 & L5).
    assert (Hm : In m implicit_methods).
    { destruct (in_dec Z.eq_dec m implicit_methods) as [Hi|Hi]; [exact Hi|]. exfalso. rewrite <- irk_stages_pos in Hi.
      assert (E : irk_stages m = 0%nat) by lia.
      assert (Hu : sc = unsupported_coeffs).
      { clear - Ht E. unfold irk_table, irk_stages in * .
        repeat match type of E with context [(m =? ?k)%Z] => destruct (m =? k)%Z; [discriminate E|] end. congruence. }
      rewrite Hu in Hmo. discriminate. }
    destruct (irk_table_fields m sc Ht Hm) as [Lb2 Ho].
    assert (Ho' : has_orders m = true).
    { destruct (has_orders m); [reflexivity|]. destruct Ho as [E|E]; rewrite E in Hmo; [|destruct (sc_order sc)]; discriminate. }
    assert (Hb2 : has_b2 m = true).
    { destruct (has_b2 m); [reflexivity|]. unfold mv in Hd2w. rewrite Lb2 in Hd2w.
      apply inv_inv in HAi. destruct HAi as (_ & fi & _ & ->). rewrite L3 in Hd2w. unfold transpose, ncols, mtab in Hd2w. cbn [mcols nrows] in Hd2w.
      rewrite map_length, seq_length in Hd2w. apply irk_stages_pos in Hm. destruct (irk_stages m); [lia|discriminate]. }
    rewrite Hb2 in Lb2.
    assert (Eo : (if io_adaptive opts && (length (sc_b2 sc) =? 0)%nat
                then IrkOptions false (io_rel_tol opts) (io_abs_tol opts) (io_max_dt opts) (io_max_steps opts) (io_newton opts) else opts) = opts).
    { rewrite Lb2, L1. apply irk_stages_pos in Hm. destruct (irk_stages m); [lia|]. rewrite andb_false_r. reflexivity. }
    rewrite Eo in * .
    assert (Hst : irk_started t0 t1 opts m dt sc nopts mo dw d2w).
    { constructor; try assumption.
      + destruct (io_newton opts); [injection Hn as <-; reflexivity|discriminate].
      + destruct (sc_order sc) as [a|]; [|discriminate]. destruct (sc_order2 sc) as [b|]; [|discriminate]. exists a, b. injection Hmo as <-. auto.
      + exists Ai. auto. }
    assert (Hcl : 0 < clip t1 t0 dt).
    { destruct Hpos as [Hnd|[P1 P2]].
      - specialize (Hv Hnd). apply Rltb_true in Hv. simpl in Hv. unfold Rlit in Hv. simpl in Hv. lra.
      - rewrite clip_R. apply Rmin_glb_lt; lra. }
    apply wi_bind; [|intros [s|s]; apply wi_ret].
    apply wi_while with (I := pos_state t0).
    - intros s Hs Hlt. split; [|intros v v' s' Hb; eapply body_pos; eassumption].
      destruct Hs as (X1 & _ & _ & _ & X5). apply Rltb_true in Hlt.
      assert (Hh : 0 < clip t1 (is_t s) (is_dt s)) by (rewrite clip_R; apply Rmin_glb_lt; lra).
      assert (Hw : forall u, is_t s <= u <= is_t s + clip t1 (is_t s) (is_dt s) -> t0 <= u <= t1).
      { intros u Hu. rewrite clip_R in * . pose proof (Rmin_r (is_dt s) (t1 - is_t s)). lra. }
      unfold irk_body. fold (clip t1 (is_t s) (is_dt s)). cbv zeta. match goal with |- within _ (if ?b then _ else _) => destruct b end; [apply wi_ret|].
      apply wi_bind; [eapply wi_weaken; [exact Hw|apply wi_stages; [exact Hc|lra]]|intros sr].
      match goal with |- within _ (if ?b then _ else _) => destruct b end; [wi|].
      apply wi_bind; [eapply wi_weaken; [exact Hw|apply wi_estimate; lra]|intros [[yn est] calls]]. unfold irk_record. wi.
    - unfold pos_state. cbn [is_dt is_dts0 is_dts1 is_err0 is_t]. repeat split; try assumption; [|lra]. simpl. unfold Rlit, Z.pow_pos. simpl. lra.
  Qed.
End Within.
