(** A run depends on the functor only through the calls it makes (C84). *)
From Verif Require Import Model.Base Model.Scalar Model.LinAlg Model.CyclicBuffer Model.Newton Model.Enums Model.Options Model.Coeffs Model.ErkCoeffs Model.Erk Model.IrkCoeffs Model.Irk Model.Multistep.
From Verif Require Import Spec.Observe Spec.LocalitySpec.

Section Local.
  Context {T : Type} {HS : Scalar T} {HL : LinAlg T} {HE : Env T} {St : Type} (F G : functor T St).
  Local Notation W1 := (world T (St * list (call T))).
  Local Notation W2 := (world T St).
  Definition local {A} (p : M W1 A) (q : M W2 A) : Prop :=
    forall w, exists l, snd (w_st (fst (p w))) = snd (w_st w) ++ l /\
      (Forall (agree_at F G) l -> q (unlogged w) = (unlogged (fst (p w)), snd (p w))).

  Lemma loc_pure {A} (x : res A) : local (fun w => (w, x)) (fun w => (w, x)).
  Proof. intros w. exists []. split; [rewrite app_nil_r; reflexivity|reflexivity]. Qed.
  Lemma loc_lift {A} (x : res A) : local (lift x) (lift x).
  Proof. apply loc_pure. Qed.
  Lemma loc_ret {A} (x : A) : local (ret x) (ret x).
  Proof. apply loc_pure. Qed.
  Lemma loc_fail {A} e : local (A := A) (fail e) (fail e).
  Proof. apply loc_pure. Qed.
  Lemma loc_assert n b : local (assert_ n b) (assert_ n b).
  Proof. unfold assert_. destruct n; [apply loc_ret|]. destruct b; [apply loc_ret|apply loc_fail]. Qed.
  Lemma loc_write t y : local (write_line t y) (write_line t y).
  Proof. intros w. exists []. split; [rewrite app_nil_r; reflexivity|reflexivity]. Qed.
  Lemma loc_bind {A B} (p : M W1 A) q (k : A -> M W1 B) k' : local p q -> (forall a, local (k a) (k' a)) -> local (bind p k) (bind q k').
  Proof.
    intros Hp Hk w. unfold bind. destruct (Hp w) as (l & H1 & H2). destruct (p w) as [w1 [a|e]]; cbn [fst snd] in * .
    - destruct (Hk a w1) as (l' & K1 & K2). exists (l ++ l'). rewrite K1, H1, app_assoc. split; [reflexivity|].
      intros Hf. apply Forall_app in Hf. destruct Hf as [Hf1 Hf2]. rewrite (H2 Hf1). apply K2, Hf2.
    - exists l. split; [exact H1|]. intros Hf. rewrite (H2 Hf). reflexivity.
  Qed.
  Lemma loc_fun t y : local (in_world (f_fun (logged F) t y)) (in_world (f_fun G t y)).
  Proof.
    intros [[s l] o]. exists [CallFun t y]. unfold in_world, unlogged. cbn [logged f_fun w_st fst snd w_out].
    destruct (f_fun F t y s) as [s1 r] eqn:E. cbn [fst snd w_st w_out]. split; [reflexivity|].
    intros Hf. inversion_clear Hf as [|? ? Ha _]. simpl in Ha. rewrite <- Ha, E. reflexivity.
  Qed.
  Lemma loc_jac t y : local (in_world (f_jac (logged F) t y)) (in_world (f_jac G t y)).
  Proof.
    intros [[s l] o]. exists [CallJac t y]. unfold in_world, unlogged. cbn [logged f_jac w_st fst snd w_out].
    destruct (f_jac F t y s) as [s1 r] eqn:E. cbn [fst snd w_st w_out]. split; [reflexivity|].
    intros Hf. inversion_clear Hf as [|? ? Ha _]. simpl in Ha. rewrite <- Ha, E. reflexivity.
  Qed.
  Lemma loc_foldM {A X} (b : X -> A -> M W1 A) b' : (forall x a, local (b x a) (b' x a)) -> forall l a, local (foldM b l a) (foldM b' l a).
  Proof. intros Hb. induction l as [|x l IH]; intros a; cbn [foldM]; [apply loc_ret|]. apply loc_bind; [apply Hb|apply IH]. Qed.
  Lemma loc_while {S R} (c : S -> bool) (b : S -> M W1 (S + R)) b' : (forall s, local (b s) (b' s)) -> forall fuel s, local (while c b fuel s) (while c b' fuel s).
  Proof.
    intros Hb. induction fuel as [|n IH]; intros s; cbn [while]; (destruct (c s); [|apply loc_ret]); [apply loc_fail|].
    apply loc_bind; [apply Hb|]. intros [s'|r]; [apply IH|apply loc_ret].
  Qed.

  Ltac loc1 := first
    [ apply loc_lift | apply loc_ret | apply loc_fail | apply loc_assert | apply loc_write | apply loc_fun | apply loc_jac
    | apply loc_bind; [|intros ?] | apply loc_foldM; intros ? ? | apply loc_while; intros ?
    | match goal with |- local (if ?b then _ else _) _ => destruct b
      | |- local (match ?x with _ => _ end) _ => destruct x end | progress cbv zeta ].
  Ltac loc := repeat loc1.

  Lemma loc_erk fuel t0 t1 y0 opts oo m dt : local (erk_odeint fuel (logged F) t0 t1 y0 opts oo m dt) (erk_odeint fuel G t0 t1 y0 opts oo m dt).
  Proof. unfold erk_odeint, erk_guts, erk_body, erk_control, erk_write, erk_stages_loop, erk_stage. loc. Qed.

  Lemma loc_R y t dt sc Y I : local (construct_R (logged F) y t dt sc Y I) (construct_R G y t dt sc Y I).
  Proof. unfold construct_R. loc. Qed.
  Lemma loc_refresh y t dt sc plu L : local (refresh_jacobi_matrix (logged F) y t dt sc plu L) (refresh_jacobi_matrix G y t dt sc plu L).
  Proof. unfold refresh_jacobi_matrix. loc. Qed.
  Lemma loc_stages y t dt sc ad plu mi rj xt Rt a b : local (newton_solve_stages (logged F) y t dt sc ad plu mi rj xt Rt a b) (newton_solve_stages G y t dt sc ad plu mi rj xt Rt a b).
  Proof.
    unfold newton_solve_stages, stage_body. 
    repeat first [apply loc_R|apply loc_refresh|loc1].
  Qed.
  Lemma loc_estimate opts sc dw d2w t dt y Y J alt : local (irk_estimate (logged F) opts sc dw d2w t dt y Y J alt) (irk_estimate G opts sc dw d2w t dt y Y J alt).
  Proof. unfold irk_estimate. loc. Qed.
  Lemma loc_irk fuel t0 t1 y0 opts oo m dt : local (irk_odeint fuel (logged F) t0 t1 y0 opts oo m dt) (irk_odeint fuel G t0 t1 y0 opts oo m dt).
  Proof.
    unfold irk_odeint, irk_guts, irk_body, irk_record. repeat first [apply loc_stages|apply loc_estimate|loc1].
  Qed.
  Lemma loc_ab fuel t0 t1 y0 order dt : local (adams_bashforth fuel (logged F) t0 t1 y0 order dt) (adams_bashforth fuel G t0 t1 y0 order dt).
  Proof.
    unfold adams_bashforth, bootstrap_history, ab_body, adams_bashforth_step, ab_sum, ab_term.
    repeat first [apply loc_irk|loc1].
  Qed.
End Local.
