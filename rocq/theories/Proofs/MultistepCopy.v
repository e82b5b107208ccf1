(** What bdf does to the state of the caller's functor. *)
From Verif Require Import Model.Base Model.Scalar Model.LinAlg Model.CyclicBuffer Model.Newton Model.Enums Model.Options Model.Coeffs Model.IrkCoeffs Model.Irk Model.Multistep.
From Verif Require Import Spec.Observe Spec.MultistepSpec Proofs.NaiveInstance Proofs.ErkExamples Proofs.MultistepExamples.

Section Copy.
  Context {T : Type} `{HS : Scalar T} `{HL : LinAlg T} `{HE : Env T} {St : Type}.
  Local Notation W := (world T St).
  Lemma lift_world {A} (r : res A) (w : W) : fst (lift r w) = w. Proof. reflexivity. Qed.
  Lemma bind_world {A B} (m : M W A) (k : A -> M W B) (w : W) : fst (m w) = w -> (forall a, fst (k a w) = w) -> fst (bind m k w) = w.
  Proof. intros Hm Hk. unfold bind. destruct (m w) as [w1 [a|e]]; cbn in Hm; subst w1; [apply Hk|reflexivity]. Qed.
  Lemma while_world {S R} (c : S -> bool) (body : S -> M W (S + R)) (w : W) : (forall s, fst (body s w) = w) -> forall fuel s, fst (while c body fuel s w) = w.
  Proof.
    intros Hb. induction fuel as [|fuel IH]; intros s; cbn [while]; destruct (c s); try reflexivity. apply bind_world; [apply Hb|]. intros [s'|x]; [apply IH|reflexivity].
  Qed.
  Lemma bdf_body_world (F : functor T St) order n dt s (w : W) : fst (bdf_body F order n dt s w) = w.
  Proof.
    unfold bdf_body. apply bind_world; [reflexivity|]. intros part. cbv zeta. apply bind_world; [unfold on_copy; destruct (newton_iterate _ _ _ _ _ _); reflexivity|]. intros [[yn st] x].
    match goal with |- fst ((if ?b then _ else _) _) = _ => destruct b end; [reflexivity|]. apply bind_world; [reflexivity|]. intros h. reflexivity.
  Qed.
  Definition bdf_world_of fuel (F : functor T St) t0 y0 order h (w : W) : W :=
    if (order >? 6)%Z then w else if (order <=? 0)%Z then w else fst (bind (assert_ ndebug (h >?. sZ 0)%sc) (fun _ => bootstrap_history fuel F (order + 1) y0 t0 h) w).
  Lemma bdf_world fuel (F : functor T St) t0 t1 y0 order dt (w : W) : fst (bdf fuel F t0 t1 y0 order dt w) = bdf_world_of fuel F t0 y0 order (fitted_step t0 t1 dt) w.
  Proof.
    unfold bdf, bdf_world_of. destruct (order >? 6)%Z; [reflexivity|]. destruct (order <=? 0)%Z eqn:El; [reflexivity|]. apply Z.leb_gt in El.
    fold (fitted_step t0 t1 dt). set (h := fitted_step t0 t1 dt). unfold bind at 1. match goal with |- _ = fst (bind ?a ?b w) => change (bind a b w) with (let '(w', r) := a w in match r with Ok x => b x w' | Err e => (w', Err e) end) end. destruct (assert_ ndebug (h >?. sZ 0)%sc w) as [w1 [u|e]]; [|reflexivity].
    assert (Ec : cb_make (A := list T) [] (order + 1) = Ok (CBuf (order + 1) 0 0 (repeat [] (Z.to_nat (2 * (order + 1)))))) by (unfold cb_make; replace (order + 1 <? 0)%Z with false by (symmetry; apply Z.ltb_ge; lia); reflexivity).
    rewrite Ec. unfold bind at 1. cbn [lift]. unfold bind at 1. destruct (bootstrap_history fuel F (order + 1) y0 t0 h w1) as [w2 [hist|e]]; [|reflexivity]. cbn [fst].
    apply bind_world; [reflexivity|]. intros [[t y] b]. apply bind_world; [apply while_world; intros s; apply bdf_body_world|]. intros [s|o]; reflexivity.
  Qed.
  Lemma bdf_copy fuel (F : functor T St) t0 t1 t1' y0 order dt (w : W) : fitted_step t0 t1 dt = fitted_step t0 t1' dt ->
    fst (bdf fuel F t0 t1 y0 order dt w) = fst (bdf fuel F t0 t1' y0 order dt w).
  Proof. intros E. rewrite !bdf_world, E. reflexivity. Qed.
End Copy.

(** y' = - y^2, with a functor that counts its evaluations *)
Section F64.
  Local Open Scope sc_scope.
  #[local] Existing Instance mg_S.
  Definition mc_F : functor f64 nat :=
    Functor (fun t y s => (S s, Ok (match y with [a] => [-. (a *. a)] | _ => y end))) (fun t y s => (S s, Ok (match y with [a] => Mat 1 [[-. (sZ 2 *. a)]] | _ => mat_empty end))).
  Definition mc_bdf (t1 : f64) := @bdf f64 mg_S mg_LA (ex_E false) _ 60 mc_F (sZ 0) t1 [sZ 1] 2 mg_dt (World 0%nat []).
  Definition mc_summary {A} (r : world f64 nat * res (basic_output A)) : nat * option nat :=
    (w_st (fst r), match snd r with Ok s => Some (length (bo_t_vals s)) | _ => None end).
  Definition mc_end (k : Z) : f64 := slit k (-5).
  Definition mc_over (t1 : f64) : bool := (sZ 0 +. mg_dt >?. t1).
  Lemma mc_runs : mc_over (mc_end 1) = false /\ mc_over (mc_end 2) = false /\ snd (mc_summary (mc_bdf (mc_end 1))) = Some 7%nat /\ snd (mc_summary (mc_bdf (mc_end 2))) = Some 11%nat.
  Proof. vm_compute. repeat split; reflexivity. Qed.
End F64.
