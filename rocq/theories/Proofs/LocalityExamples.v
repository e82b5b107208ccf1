(** A concrete run for C84. *)
From Verif Require Import Model.Base Model.Scalar Model.LinAlg Model.Enums Model.Options Model.Erk.
From Verif Require Import Spec.Observe Spec.LocalitySpec.
From Verif Require Import Proofs.Locality Proofs.LocalityFinal Proofs.ErkExamples.

Definition is_fun {T} (c : call T) : bool := match c with CallFun _ _ => true | CallJac _ _ => false end.
Definition calls_made {T A} (r : world T (unit * list (call T)) * A) : nat * bool := (length (snd (w_st (fst r))), forallb is_fun (snd (w_st (fst r)))).
Lemma no_jacobian {T} {HS : Scalar T} {HL : LinAlg T} {HE : Env T} (F : functor T unit) fuel t0 t1 y0 opts oo m dt n :
  calls_made (erk_odeint fuel (logged F) t0 t1 y0 opts oo m dt (World (tt, []) [])) = (n, true) ->
  exists w' r, erk_odeint fuel (logged F) t0 t1 y0 opts oo m dt (World (tt, []) []) = (w', r) /\ length (snd (w_st w')) = n /\
  forall jac, erk_odeint fuel (Functor (f_fun F) jac) t0 t1 y0 opts oo m dt (World tt []) = (unlogged w', r).
Proof.
  destruct (erk_odeint fuel (logged F) t0 t1 y0 opts oo m dt (World (tt, []) [])) as [w' r] eqn:E. unfold calls_made. cbn [fst]. intros [= Hn Hf]. exists w', r. split; [reflexivity|]. split; [exact Hn|].
  intros jac. destruct (local_all F (fun G => erk_odeint fuel G t0 t1 y0 opts oo m dt) (fun G => erk_odeint fuel G t0 t1 y0 opts oo m dt) (fun G => loc_erk F G fuel t0 t1 y0 opts oo m dt) _ _ _ E) as (l & H1 & H2).
  apply H2. simpl in H1. rewrite <- H1. rewrite forallb_forall in Hf. apply Forall_forall. intros c Hc. specialize (Hf c Hc). destruct c; [intros s; reflexivity|discriminate].
Qed.
Lemma ex_calls_run : calls_made (@erk_odeint f64 ex_S ex_LA (ex_E false) _ 50 (logged ex_osc) (@sZ _ ex_S 0) (@sZ _ ex_S 1) [@sZ _ ex_S 1; @sZ _ ex_S 0] (ex_opts true (-1)) ex_file CASH_KARP_54 (@slit _ ex_S 5 (-1)) (World (tt, []) [])) = (114%nat, true).
Proof. vm_compute. reflexivity. Qed.
