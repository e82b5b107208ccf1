(** The explicit integrator, for every scalar type. *)
From Verif Require Import Model.Base Model.Scalar Model.LinAlg Model.Enums Model.Options Model.Coeffs Model.ErkCoeffs Model.Erk.
From Verif Require Import Spec.Observe Spec.ErkSpec Spec.Methods Proofs.LoopProofs Proofs.OrderProofs Proofs.TablesGeneric.
Local Open Scope sc_scope.
Local Open Scope mon_scope.

Section Dims.
  Context {T : Type}.
  Lemma dims_of (sc : solver_coeffs T) s : dims_ok sc s = true ->
    length (sc_b sc) = s /\ length (sc_c sc) = s /\ nrows (sc_A sc) = s /\ length (mcols (sc_A sc)) = s /\
    Forall (fun c => length c = s) (mcols (sc_A sc)).
  Proof.
    unfold dims_ok. rewrite !andb_true_iff, !Nat.eqb_eq, forallb_forall, Forall_forall.
    intros [[[[H1 H2] H3] H4] H5]. repeat split; auto. intros c Hc. apply Nat.eqb_eq, H5, Hc.
  Qed.
  Definition mdim (A : mat T) (n m : nat) : Prop :=
    nrows A = n /\ length (mcols A) = m /\ Forall (fun c => length c = n) (mcols A).

  Lemma list_set_length {A} (l : list A) i x : length (list_set l i x) = length l.
  Proof. revert i. induction l as [|a l IH]; intros [|i]; simpl; auto. Qed.
  Lemma list_set_nth {A} (l : list A) i j x d : (i < length l)%nat ->
    nth j (list_set l i x) d = if (j =? i)%nat then x else nth j l d.
  Proof.
    revert i j. induction l as [|a l IH]; intros [|i] [|j] H; simpl in *; try lia; auto. apply IH. lia.
  Qed.
  Lemma list_set_Forall {A} (P : A -> Prop) (l : list A) i x : P x -> Forall P l -> Forall P (list_set l i x).
  Proof. intros Hx Hl. revert i. induction Hl; intros [|i]; simpl; auto. Qed.

  Lemma mtab_dim n m f : mdim (mtab n m f) n m.
  Proof.
    unfold mdim, mtab; simpl. rewrite map_length, seq_length. repeat split. apply Forall_map, Forall_forall.
    intros j _. rewrite map_length, seq_length. reflexivity.
  Qed.
  Lemma mset_col_dim A n m j v B : mdim A n m -> mset_col A j v = Ok B ->
    mdim B n m /\ (j < m)%nat /\ length v = n /\ mcols B = list_set (mcols A) j v.
  Proof.
    intros (H1 & H2 & H3). unfold mset_col, ncols. destruct ((j <? length (mcols A))%nat && (length v =? nrows A)%nat) eqn:E; [|discriminate].
    rewrite andb_true_iff, Nat.ltb_lt, Nat.eqb_eq in E. destruct E as [E1 E2]. intros [= <-]. unfold mdim; simpl.
    rewrite list_set_length. repeat split; try lia. apply list_set_Forall; [congruence|exact H3].
  Qed.
  Lemma mset_col_ok A n m j (v : list T) : mdim A n m -> (j < m)%nat -> length v = n -> exists B, mset_col A j v = Ok B.
  Proof.
    intros (H1 & H2 & H3) Hj Hv. unfold mset_col, ncols. rewrite H1, H2. apply Nat.ltb_lt in Hj. rewrite Hj.
    rewrite (proj2 (Nat.eqb_eq _ _) Hv). simpl. eauto.
  Qed.
  Lemma mcol_ok A n m j : mdim A n m -> (j < m)%nat -> mcol A j = Ok (nth j (mcols A) []) /\ length (nth j (mcols A) []) = n.
  Proof.
    intros (H1 & H2 & H3) Hj. unfold mcol. rewrite <- H2 in Hj. rewrite (nth_error_nth' _ [] Hj). split; [reflexivity|].
    rewrite Forall_forall in H3. apply H3, nth_In, Hj.
  Qed.
  Lemma mcol_inv A n m j v : mdim A n m -> mcol A j = Ok v -> (j < m)%nat /\ v = nth j (mcols A) [] /\ length v = n.
  Proof.
    intros Hd. pose proof Hd as (H1 & H2 & H3). unfold mcol. destruct (nth_error (mcols A) j) eqn:E; [|discriminate]. intros [= <-].
    assert (j < m)%nat by (rewrite <- H2; apply nth_error_Some; congruence). split; [assumption|].
    destruct (mcol_ok A n m j Hd H) as [Hc Hl]. unfold mcol in Hc. rewrite E in Hc. injection Hc as ->. auto.
  Qed.
  Lemma vectorise_length A n m : mdim A n m -> length (vectorise A) = (m * n)%nat.
  Proof.
    intros (_ & H2 & H3). unfold vectorise. rewrite <- H2. clear H2. induction H3; simpl; [reflexivity|].
    rewrite app_length, IHForall. lia.
  Qed.
  Lemma vget_ok (x : list T) i d : (i < length x)%nat -> vget x i = Ok (nth i x d).
  Proof. intros Hi. unfold vget. rewrite (nth_error_nth' _ d Hi). reflexivity. Qed.
  Lemma vget_inv (x : list T) i a d : vget x i = Ok a -> (i < length x)%nat /\ a = nth i x d.
  Proof.
    unfold vget. destruct (nth_error x i) eqn:E; [|discriminate]. intros [= <-].
    split; [apply nth_error_Some; congruence|]. symmetry. apply nth_error_nth, E.
  Qed.
  Lemma zipwith_length (f : T -> T -> T) x y : length x = length y -> length (zipwith f x y) = length x.
  Proof. intros H. unfold zipwith. rewrite map_length, combine_length. lia. Qed.
  Context `{Scalar T}.
  Lemma vadd_inv x y (z : list T) : vadd x y = Ok z -> length x = length y /\ z = zipwith sadd x y /\ length z = length x.
  Proof.
    unfold vadd. destruct (Nat.eqb_spec (length x) (length y)) as [E|E]; [|discriminate]. intros [= <-].
    rewrite zipwith_length; auto.
  Qed.
  Lemma vadd_ok x y : length x = length y -> vadd x y = Ok (zipwith sadd x y).
  Proof. intros E. unfold vadd. rewrite E, Nat.eqb_refl. reflexivity. Qed.
  Lemma vsub_inv x y (z : list T) : vsub x y = Ok z -> length x = length y /\ z = zipwith ssub x y /\ length z = length x.
  Proof.
    unfold vsub. destruct (Nat.eqb_spec (length x) (length y)) as [E|E]; [|discriminate]. intros [= <-].
    rewrite zipwith_length; auto.
  Qed.
  Lemma vsub_ok x y : length x = length y -> vsub x y = Ok (zipwith ssub x y).
  Proof. intros E. unfold vsub. rewrite E, Nat.eqb_refl. reflexivity. Qed.
  Lemma vscale_length k (x : list T) : length (vscale k x) = length x.
  Proof. apply map_length. Qed.
  Context `{LinAlg T}.
  Lemma mv_inv A x (v : list T) : mv A x = Ok v -> ncols A = length x /\ v = vtab (nrows A) (la_mv A x) /\ length v = nrows A.
  Proof.
    unfold mv. destruct (Nat.eqb_spec (ncols A) (length x)) as [E|E]; [|discriminate]. intros [= <-].
    unfold vtab. rewrite map_length, seq_length. auto.
  Qed.
  Lemma mv_ok A (x : list T) : ncols A = length x -> mv A x = Ok (vtab (nrows A) (la_mv A x)).
  Proof. intros E. unfold mv. rewrite E, Nat.eqb_refl. reflexivity. Qed.
  Lemma vtab_length {X} n (f : nat -> X) : length (vtab n f) = n.
  Proof. unfold vtab. rewrite map_length, seq_length. reflexivity. Qed.
End Dims.

Section Body.
  Context {T : Type} `{Scalar T} `{LinAlg T} `{Env T} {St : Type}.
  Local Notation W := (world T St).
  Variables (F : functor T St) (t1 : T) (opts : erk_options T) (sc : solver_coeffs T) (oo : output_options) (mo : Z).

  Definition clip (t dt : T) : T := if t +. dt >?. t1 then t1 -. t else dt.
  Definition limit_hit (s : erk_state T) : bool := (0 <=? eo_max_steps opts)%Z && (eo_max_steps opts <? es_step s)%Z.

  (** what the adaptive part computed *)
  Definition controlled (dt : T) (Ks : mat T) (y y_n delta_y : list T) (err : T) (err_est : list T) (rej : bool) (new_dt : T) : Prop :=
    exists delta_alt tot, mv Ks (sc_b2 sc) = Ok delta_alt /\ length delta_alt = length delta_y /\
      err_est = vscale dt (zipwith ssub delta_alt delta_y) /\
      erk_err_tot opts y y_n err_est = Ok tot /\ (ndebug = false -> (tot >=?. slit 0 0) = true) /\
      (let e := ssqrt (tot /. sZ (Z.of_nat (length y))) in err = if e <?. machine_precision then machine_precision else e) /\
      rej = (err >=?. sZ 1) /\ new_dt = erk_new_dt opts mo err dt.
  Lemma erk_control_inv dt Ks y y_n delta_y (w w' : W) err err_est rej new_dt :
    erk_control opts sc mo dt Ks y y_n delta_y w = (w', Ok (err, err_est, rej, new_dt)) ->
    w' = w /\ controlled dt Ks y y_n delta_y err err_est rej new_dt.
  Proof.
    unfold erk_control. intros Hc. inv_run. subst. match goal with H : vsub _ _ = Ok _ |- _ => apply vsub_inv in H; destruct H as (L & -> & _) end.
    match goal with H : (_, _, _, _) = _ |- _ => injection H as <- <- <- <- end. split; [reflexivity|].
    unfold controlled. eexists _, _. split; [eassumption|]. split; [exact L|]. split; [reflexivity|]. split; [eassumption|]. auto 10.
  Qed.

  Definition file_line (t : T) (y : list T) : list (T * list T) := if write_to_file oo then [(t, y)] else [].
  Lemma erk_write_inv t y (w w' : W) u : erk_write oo t y w = (w', Ok u) -> w' = World (w_st w) (w_out w ++ file_line t y).
  Proof.
    unfold erk_write, file_line. destruct (write_to_file oo).
    - destruct (output_stream oo); [|discriminate]. unfold write_line. intros [= <- _]. reflexivity.
    - intros Hr. apply ret_ok in Hr. destruct Hr as [-> _]. rewrite app_nil_r. destruct w; reflexivity.
  Qed.

  (** one attempt of the main loop, from state [s] to state [s'] *)
  Record attempted (s : erk_state T) (w w' : W) (s' : erk_state T)
    (w1 : W) (Ks : mat T) (evals : nat) (dy yn : list T) (err : T) (err_est : list T) (rej : bool) (new_dt : T) : Prop := {
    ap_limit : limit_hit s = false;
    ap_loop : erk_stages_loop F sc (es_t s) (clip (es_t s) (es_dt s)) (es_y s) (es_Ks s) (eo_fun_evals (es_sol s)) w
              = (w1, Ok (Ks, evals));
    ap_dy : mv Ks (sc_b sc) = Ok dy;
    ap_yn : vadd (es_y s) (vscale (clip (es_t s) (es_dt s)) dy) = Ok yn;
    ap_ctl : if eo_adaptive opts
             then controlled (clip (es_t s) (es_dt s)) Ks (es_y s) yn dy err err_est rej new_dt
             else err = es_err s /\ err_est = es_err_est s /\ rej = false /\ new_dt = clip (es_t s) (es_dt s);
    ap_write : w' = World (w_st w1) (w_out w1 ++ file_line (es_t s) yn);
    ap_next :
      let sol1 := with_counts (es_sol s) (S (eo_attempt (es_sol s)))
                    (if rej then S (eo_reject_err (es_sol s)) else eo_reject_err (es_sol s)) evals in
      if rej then s' = ErkState (es_t s) (es_y s) new_dt (es_step s) Ks err err_est sol1
      else exists Ks', fsal_hook sc Ks = Ok Ks' /\
        s' = ErkState (es_t s +. clip (es_t s) (es_dt s)) yn new_dt (es_step s + 1) Ks' err err_est
               (erk_record sol1 (es_t s +. clip (es_t s) (es_dt s)) yn err_est Ks err)
  }.

  Lemma erk_body_inl s w w' s' : erk_body F t1 opts sc oo mo s w = (w', Ok (inl s')) ->
    exists w1 Ks evals dy yn err err_est rej new_dt, attempted s w w' s' w1 Ks evals dy yn err err_est rej new_dt.
  Proof.
    unfold erk_body. fold (limit_hit s). destruct (limit_hit s) eqn:El.
    { intros Hr. apply ret_ok in Hr. destruct Hr; discriminate. }
    fold (clip (es_t s) (es_dt s)). intros Hr. apply bind_ok in Hr. destruct Hr as (w1 & [Ks evals] & Hl & Hr).
    apply bind_ok in Hr. destruct Hr as (w2 & dy & Hd & Hr). apply lift_ok in Hd. destruct Hd as [-> Hd].
    apply bind_ok in Hr. destruct Hr as (w2 & yn & Hy & Hr). apply lift_ok in Hy. destruct Hy as [-> Hy].
    apply bind_ok in Hr. destruct Hr as (w2 & [[[err err_est] rej] new_dt] & Hc & Hr).
    assert (Hc' : w2 = w1 /\ if eo_adaptive opts
             then controlled (clip (es_t s) (es_dt s)) Ks (es_y s) yn dy err err_est rej new_dt
             else err = es_err s /\ err_est = es_err_est s /\ rej = false /\ new_dt = clip (es_t s) (es_dt s)).
    { destruct (eo_adaptive opts); [apply erk_control_inv, Hc|]. apply ret_ok in Hc. destruct Hc as [-> [= <- <- <- <-]]. auto. }
    clear Hc. destruct Hc' as [-> Hc]. apply bind_ok in Hr. destruct Hr as (w2 & u & Hw & Hr). apply erk_write_inv in Hw. subst w2.
    exists w1, Ks, evals, dy, yn, err, err_est, rej, new_dt. destruct rej.
    - apply ret_ok in Hr. destruct Hr as [-> [= <-]]. constructor; try assumption; reflexivity.
    - apply bind_ok in Hr. destruct Hr as (w2 & Ks' & Hk & Hr). apply lift_ok in Hk. destruct Hk as [-> Hk].
      apply ret_ok in Hr. destruct Hr as [-> [= <-]]. constructor; try assumption; try reflexivity. cbv zeta. exists Ks'. split; [exact Hk|].
      destruct (eo_adaptive opts); [reflexivity|]. destruct Hc as (_ & _ & _ & ->). reflexivity.
  Qed.
  Lemma erk_body_inr s w w' r : erk_body F t1 opts sc oo mo s w = (w', Ok (inr r)) ->
    w' = w /\ limit_hit s = true /\
    r = with_status (with_counts (es_sol s) (S (eo_attempt (es_sol s))) (eo_reject_err (es_sol s)) (eo_fun_evals (es_sol s)))
                    ERROR_MAX_STEPS_EXCEEDED.
  Proof.
    unfold erk_body. fold (limit_hit s). destruct (limit_hit s) eqn:El.
    { intros Hr. apply ret_ok in Hr. destruct Hr as [-> [= <-]]. auto. }
    fold (clip (es_t s) (es_dt s)). intros Hr. exfalso.
    apply bind_ok in Hr. destruct Hr as (w1 & [Ks evals] & Hl & Hr).
    apply bind_ok in Hr. destruct Hr as (w2 & dy & Hd & Hr).
    apply bind_ok in Hr. destruct Hr as (w3 & yn & Hy & Hr).
    apply bind_ok in Hr. destruct Hr as (w4 & [[[err err_est] rej] new_dt] & Hc & Hr).
    apply bind_ok in Hr. destruct Hr as (w5 & u & Hw & Hr). destruct rej.
    - apply ret_ok in Hr. destruct Hr; discriminate.
    - apply bind_ok in Hr. destruct Hr as (w6 & Ks' & Hk & Hr). apply ret_ok in Hr. destruct Hr; discriminate.
  Qed.

End Body.

Section Guts.
  Context {T : Type} `{Scalar T} `{LinAlg T} `{Env T} {St : Type}.
  Local Notation W := (world T St).
  Variables (F : functor T St) (t1 : T) (opts : erk_options T) (sc : solver_coeffs T) (oo : output_options).

  (** the initial state *)
  Definition init_sol (t0 : T) (y0 : list T) (Ks : mat T) (evals : nat) : erk_output T :=
    ErkOutput SUCCESS [t0] [y0] [vectorise Ks] [vzeros (length y0)] [slit 0 0] None None 0 0 evals.
  Definition junk_stages (y0 : list T) : mat T := mtab (length y0) (length (sc_b sc)) (fun _ _ => junk).

  Lemma erk_guts_inv fuel t0 y0 dt w w' sol : erk_guts F t1 opts sc oo fuel t0 y0 dt w = (w', Ok sol) ->
    (ndebug = false -> (clip t1 t0 dt >?. sZ 0) = true) /\
    exists a b, sc_order sc = Some a /\ sc_order2 sc = Some b /\
    exists w0 Ks0, (if sc_FSAL sc then exists k, in_world (f_fun F t0 y0) w = (w0, Ok k) /\ mset_col (junk_stages y0) 0 k = Ok Ks0
                    else w0 = w /\ Ks0 = junk_stages y0) /\
    exists r,
      while (fun s => es_t s <?. t1) (erk_body F t1 opts sc oo (Z.min a b mod 2 ^ 64)%Z) fuel
        (ErkState t0 y0 (clip t1 t0 dt) 0 Ks0 (slit 0 0) (vzeros (length y0)) (init_sol t0 y0 (junk_stages y0) (stage_iter_start sc))) w0 = (w', Ok r) /\
    sol = match r with
          | inr sol => sol
          | inl s => let sol := es_sol s in
              ErkOutput (eo_status sol) (eo_t_vals sol) (eo_y_vals sol) (eo_stages sol) (eo_err_est sol) (eo_err sol)
                         (Some clock) (Some (sZ (es_step s) /. sZ (Z.of_nat (eo_attempt sol))))
                         (eo_attempt sol) (eo_reject_err sol) (eo_fun_evals sol)
          end.
  Proof.
    unfold erk_guts. fold (clip t1 t0 dt). fold (junk_stages y0). intros Hr.
    apply bind_ok in Hr. destruct Hr as (w1 & u & Ha & Hr). apply assert_ok in Ha. destruct Ha as [-> Ha]. split; [exact Ha|].
    apply bind_ok in Hr. destruct Hr as (w1 & m & Hm & Hr). apply lift_ok in Hm. destruct Hm as [-> Hm].
    destruct (sc_order sc) as [a|]; [|discriminate]. destruct (sc_order2 sc) as [b|]; [|discriminate]. injection Hm as <-.
    exists a, b. split; [reflexivity|]. split; [reflexivity|].
    apply bind_ok in Hr. destruct Hr as (w1 & [Ks0 sol0] & Hf & Hr). exists w1, Ks0.
    apply bind_ok in Hr. destruct Hr as (w2 & r & Hw & Hr).
    unfold stage_iter_start. destruct (sc_FSAL sc).
    - apply bind_ok in Hf. destruct Hf as (w3 & k & Hk & Hf). apply bind_ok in Hf. destruct Hf as (w4 & Ks' & Hs & Hf).
      apply lift_ok in Hs. destruct Hs as [-> Hs]. apply ret_ok in Hf. destruct Hf as [-> [= <- <-]].
      split; [eauto|]. exists r. destruct r as [s|x]; apply ret_ok in Hr; destruct Hr as [-> <-]; (split; [exact Hw|reflexivity]).
    - apply ret_ok in Hf. destruct Hf as [-> [= <- <-]]. split; [auto|].
      exists r. destruct r as [s|x]; apply ret_ok in Hr; destruct Hr as [-> <-]; (split; [exact Hw|reflexivity]).
  Qed.
End Guts.

(** ** The stage loop *)
Section Stages.
  Context {T : Type} `{Scalar T} `{LinAlg T} `{Env T} {St : Type}.
  Local Notation W := (world T St).
  Variables (F : functor T St) (sc : solver_coeffs T).

  Lemma stage_arg_ext y dt Ks Ks' i : (forall j, (j < i)%nat -> mcol Ks j = mcol Ks' j) ->
    erk_stage_arg sc y dt Ks i = erk_stage_arg sc y dt Ks' i.
  Proof.
    intros Hj. unfold erk_stage_arg. apply foldR_ext. intros j a Hi. apply in_seq in Hi. rewrite Hj by lia. reflexivity.
  Qed.
  Lemma mset_col_other (A : mat T) n m j v B k : mdim A n m -> mset_col A j v = Ok B -> k <> j -> mcol B k = mcol A k.
  Proof.
    intros Hd Hs Hk. destruct (mset_col_dim A n m j v B Hd Hs) as (Hd' & Hj & Hv & Hc). unfold mcol. rewrite Hc.
    clear Hc. destruct Hd as (_ & Hm & _). rewrite <- Hm in Hj. clear - Hj Hk. revert j k Hj Hk.
    induction (mcols A) as [|c l IH]; intros [|j] [|k] Hj Hk; simpl in *; try lia; auto. apply IH; lia.
  Qed.
  Lemma mset_col_same (A : mat T) n m j v B : mdim A n m -> mset_col A j v = Ok B -> mcol B j = Ok v.
  Proof.
    intros Hd Hs. destruct (mset_col_dim A n m j v B Hd Hs) as (Hd' & Hj & Hv & Hc). unfold mcol. rewrite Hc.
    clear Hc. destruct Hd as (_ & Hm & _). rewrite <- Hm in Hj. clear - Hj. revert j Hj.
    induction (mcols A) as [|c l IH]; intros [|j] Hj; simpl in *; try lia; auto. apply IH; lia.
  Qed.

  (** the call log, if there is one *)
  Variables (logging : bool) (lg : St -> list (call T)).
  Hypothesis Hlog : forall t y s, lg (fst (f_fun F t y s)) = if logging then lg s ++ [CallFun t y] else lg s.

  (** stage [i] was evaluated: at the right time and argument, by a call of the functor *)
  Definition stage_done (t dt : T) (y : list T) (Ks : mat T) (i : nat) : Prop :=
    exists arg ci k s s', erk_stage_arg sc y dt Ks i = Ok arg /\ vget (sc_c sc) i = Ok ci /\ mcol Ks i = Ok k /\
      f_fun F (t +. ci *. dt) arg s = (s', Ok k).

  Record stages_inv (n s : nat) (t dt : T) (y : list T) (Ks0 : mat T) (ev0 : nat) (w0 : W) (i : nat) (w : W) (a : mat T * nat) : Prop := {
    si_dim : mdim (fst a) n s;
    si_ev : snd a = (ev0 + (i - stage_iter_start sc))%nat;
    si_out : w_out w = w_out w0;
    si_keep : forall j, (j < stage_iter_start sc)%nat -> mcol (fst a) j = mcol Ks0 j;
    si_done : forall j, (stage_iter_start sc <= j < i)%nat -> stage_done t dt y (fst a) j;
    si_log : if logging
             then exists ys, length ys = (i - stage_iter_start sc)%nat /\
               lg (w_st w) = lg (w_st w0) ++ map (fun p => CallFun (t +. nth (fst p) (sc_c sc) (sZ 0) *. dt) (snd p))
                                              (combine (seq (stage_iter_start sc) (i - stage_iter_start sc)) ys)
             else lg (w_st w) = lg (w_st w0)
  }.

  Lemma combine_snoc {A B} (l : list A) (l' : list B) a b : length l = length l' ->
    combine (l ++ [a]) (l' ++ [b]) = combine l l' ++ [(a, b)].
  Proof. revert l'. induction l as [|x l IH]; intros [|x' l'] Hl; simpl in *; try lia; auto. rewrite IH by lia. reflexivity. Qed.

  Lemma stages_loop_inv n t dt y Ks ev w w' Ks' ev' : mdim Ks n (length (sc_b sc)) -> (stage_iter_start sc <= length (sc_b sc))%nat ->
    erk_stages_loop F sc t dt y Ks ev w = (w', Ok (Ks', ev')) ->
    stages_inv n (length (sc_b sc)) t dt y Ks ev w (length (sc_b sc)) w' (Ks', ev').
  Proof.
    intros Hd Hs Hl. unfold erk_stages_loop in Hl.
    replace (length (sc_b sc)) with (stage_iter_start sc + (length (sc_b sc) - stage_iter_start sc))%nat at 2 by lia.
    revert Hl. apply (foldM_seq _ (stages_inv n (length (sc_b sc)) t dt y Ks ev w)).
    - intros i wi [Ki ei] wi' [Ki' ei'] Hi [D E O K Dn L] Hb. unfold erk_stage in Hb. inv_run. subst.
      match goal with H : in_world _ _ = _ |- _ => apply in_world_ok in H; destruct H as (s' & Hf & ->) end.
      match goal with H : (_, _) = (_, _) |- _ => injection H as <- <- end.
      match goal with H : mset_col _ _ _ = Ok _ |- _ => rename H into Hset end.
      cbn [fst snd] in * . destruct (mset_col_dim _ _ _ _ _ _ D Hset) as (D' & _ & _ & _).
      assert (Keep : forall j, j <> i -> mcol a2 j = mcol Ki j) by (intros j Hj; exact (mset_col_other _ _ _ _ _ _ j D Hset Hj)).
      constructor; cbn [fst snd].
      + exact D'.
      + lia.
      + exact O.
      + intros j Hj. rewrite Keep by lia. apply K, Hj.
      + intros j Hj. destruct (Nat.eq_dec j i) as [->|Hn].
        * unfold stage_done. exists a, a0, a1, (w_st wi), s'. split; [|split; [|split]]; try assumption.
          -- erewrite stage_arg_ext; [eassumption|]. intros j Hj'. apply Keep. lia.
          -- exact (mset_col_same _ _ _ _ _ _ D Hset).
        * destruct (Dn j ltac:(lia)) as (arg & ci & k & s1 & s2 & A1 & A2 & A3 & A4).
          exists arg, ci, k, s1, s2. split; [|split; [|split]]; try assumption.
          -- erewrite stage_arg_ext; [eassumption|]. intros j' Hj'. apply Keep. lia.
          -- rewrite Keep by exact Hn. exact A3.
      + specialize (Hlog (t +. a0 *. dt) a (w_st wi)). rewrite Hf in Hlog. cbn [fst w_st] in * . destruct logging; [|rewrite Hlog; exact L].
        destruct L as (ys & Ly & L). exists (ys ++ [a]). rewrite app_length, Ly. simpl length. split; [lia|].
        rewrite Hlog, L, <- app_assoc. f_equal.
        replace (S i - stage_iter_start sc)%nat with (S (i - stage_iter_start sc)) by lia. rewrite seq_S, combine_snoc by (rewrite seq_length; auto).
        rewrite map_app. f_equal. simpl. replace (stage_iter_start sc + (i - stage_iter_start sc))%nat with i by lia.
        match goal with H : vget (sc_c sc) i = Ok _ |- _ => apply (vget_inv _ _ _ (sZ 0)) in H; destruct H as [_ ->] end. reflexivity.
    - constructor; cbn [fst snd]; [exact Hd|lia|reflexivity|reflexivity|intros; lia|].
      + rewrite Nat.sub_diag. destruct logging; [|reflexivity]. exists []. split; [reflexivity|]. simpl. rewrite app_nil_r. reflexivity.
  Qed.
End Stages.

(** ** Whole runs *)
Section Odeint.
  Context {T : Type} `{Scalar T} `{LinAlg T} `{Env T} {St : Type}.
  Local Notation W := (world T St).

  (** the options after odeint dropped an impossible request *)
  Definition eff_opts (opts : erk_options T) (sc : solver_coeffs T) : erk_options T :=
    if eo_adaptive opts && (length (sc_b2 sc) =? 0)%nat
    then ErkOptions false (eo_rel_tol opts) (eo_abs_tol opts) (eo_max_dt opts) (eo_max_steps opts)
    else opts.
  Lemma eff_max_steps opts sc : eo_max_steps (eff_opts opts sc) = eo_max_steps opts.
  Proof. unfold eff_opts. destruct (_ && _); reflexivity. Qed.
  Lemma eff_max_dt opts sc : eo_max_dt (eff_opts opts sc) = eo_max_dt opts.
  Proof. unfold eff_opts. destruct (_ && _); reflexivity. Qed.

  Lemma erk_odeint_inv fuel (F : functor T St) t0 t1 y0 opts oo m dt w w' sol :
    erk_odeint fuel F t0 t1 y0 opts oo m dt w = (w', Ok sol) ->
    In m explicit_methods /\ exists sc, erk_get_coefficients m = Ok sc /\ dims_ok sc (erk_stages m) = true /\
    erk_guts F t1 (eff_opts opts sc) sc oo fuel t0 y0 dt w = (w', Ok sol).
  Proof.
    unfold erk_odeint. intros Hr. apply bind_ok in Hr. destruct Hr as (w1 & sc & Hg & Hr). apply lift_ok in Hg. destruct Hg as [-> Hg].
    apply bind_ok in Hr. destruct Hr as (w2 & u & Ha & Hr). apply assert_ok in Ha. destruct Ha as [-> Ha]. fold (eff_opts opts sc) in Hr.
    destruct (erk_get_ok (T := T) m) as (sc' & Hg' & Ht & Hd). rewrite Hg in Hg'. injection Hg' as <-.
    split; [|exists sc; auto].
    destruct (in_dec Z.eq_dec m explicit_methods) as [Hi|Hi]; [exact Hi|]. exfalso.
    rewrite (erk_table_unsupported m Hi) in Ht. injection Ht as <-.
    destruct (erk_guts_inv _ _ _ _ _ _ _ _ _ _ _ _ Hr) as (_ & a & b & Hab & _). discriminate.
  Qed.
  Lemma stages_dim m (sc : solver_coeffs T) : In m explicit_methods -> dims_ok sc (erk_stages m) = true ->
    length (sc_b sc) = erk_stages m /\ length (sc_c sc) = erk_stages m /\ (0 < length (sc_b sc))%nat.
  Proof.
    intros Hm Hd. apply erk_stages_pos in Hm. destruct (dims_of sc _ Hd) as (L1 & L2 & _). lia.
  Qed.
End Odeint.
