(** The implicit integrator: inversion of the stage solver and of the loop body (every scalar type, every functor). *)
From Verif Require Import Model.Base Model.Scalar Model.LinAlg Model.Newton Model.Enums Model.Options Model.Coeffs Model.Collocation Model.IrkCoeffs Model.Irk.
From Verif Require Import Spec.Sums Spec.Observe Spec.ErkSpec Spec.NewtonSpec Spec.IrkSpec Proofs.LoopProofs Proofs.ErkProofs Proofs.NewtonProofs.
Local Open Scope sc_scope.
Local Open Scope mon_scope.

Section Blocks.
  Context {T : Type}.
  Lemma subvec_inv (v : list T) i n x : subvec v i n = Ok x -> (0 < n)%nat /\ (i + n <= length v)%nat /\ x = firstn n (skipn i v) /\ length x = n.
  Proof.
    unfold subvec. destruct (0 <? n)%nat eqn:E1; [|discriminate]. destruct (i + n <=? length v)%nat eqn:E2; [|discriminate]. simpl.
    intros [= <-]. apply Nat.ltb_lt in E1. apply Nat.leb_le in E2. repeat split; try assumption. rewrite firstn_length, skipn_length. lia.
  Qed.
  Lemma subvec_ok (v : list T) i n : (0 < n)%nat -> (i + n <= length v)%nat -> subvec v i n = Ok (firstn n (skipn i v)).
  Proof. intros H1 H2. unfold subvec. apply Nat.ltb_lt in H1. apply Nat.leb_le in H2. rewrite H1, H2. reflexivity. Qed.
  Lemma set_subvec_inv (v : list T) i n x z : set_subvec v i n x = Ok z ->
    (0 < n)%nat /\ (i + n <= length v)%nat /\ length x = n /\ z = firstn i v ++ x ++ skipn (i + n) v /\ length z = length v.
  Proof.
    unfold set_subvec. destruct (0 <? n)%nat eqn:E1; [|discriminate]. destruct (i + n <=? length v)%nat eqn:E2; [|discriminate].
    destruct (length x =? n)%nat eqn:E3; [|discriminate]. simpl. intros [= <-]. apply Nat.ltb_lt in E1. apply Nat.leb_le in E2. apply Nat.eqb_eq in E3.
    repeat split; try assumption. rewrite !app_length, firstn_length, skipn_length. lia.
  Qed.
  Lemma set_subvec_ok (v : list T) i n x : (0 < n)%nat -> (i + n <= length v)%nat -> length x = n ->
    set_subvec v i n x = Ok (firstn i v ++ x ++ skipn (i + n) v).
  Proof.
    intros H1 H2 H3. unfold set_subvec. apply Nat.ltb_lt in H1. apply Nat.leb_le in H2. apply Nat.eqb_eq in H3. rewrite H1, H2, H3. reflexivity.
  Qed.
  Lemma concat_length_const (l : list (list T)) n : Forall (fun v => length v = n) l -> length (concat l) = (n * length l)%nat.
  Proof. induction 1 as [|v l Hv _ IH]; simpl; [lia|]. rewrite app_length, IH, Hv. lia. Qed.
  Lemma block_length n j (Y : list T) m : (j < m)%nat -> length Y = (m * n)%nat -> length (block n j Y) = n.
  Proof. intros Hj HY. unfold block. rewrite firstn_length, skipn_length, HY. nia. Qed.
  Lemma kron_nrows `{Scalar T} (A B : mat T) : nrows (kron A B) = (nrows A * nrows B)%nat.
  Proof. reflexivity. Qed.
  Lemma kron_ncols `{Scalar T} (A B : mat T) : ncols (kron A B) = (ncols A * ncols B)%nat.
  Proof.
    unfold ncols, kron. cbn [mcols]. induction (mcols A) as [|ca l IH]; [reflexivity|]. cbn [flat_map length]. rewrite app_length, map_length, IH. lia.
  Qed.
End Blocks.

Section Stage.
  Context {T : Type} `{Scalar T} `{LinAlg T} `{Env T} {St : Type}.
  Local Notation W := (world T St).
  Variables (F : functor T St) (y : list T) (t dt : T) (sc : solver_coeffs T).
  Variables (logging : bool) (lg : St -> list (call T)).
  Hypothesis Hlogf : logging = true -> forall t y s, lg (fst (f_fun F t y s)) = lg s ++ [CallFun t y].
  Hypothesis Hlogj : logging = true -> forall t y s, lg (fst (f_jac F t y s)) = lg s ++ [CallJac t y].
  Let n := length y.
  Let ns := length (sc_b sc).
  Definition stage_time (j : nat) : T := t +. nth j (sc_c sc) (sZ 0) *. dt.
  Definition stage_arg (Y : list T) (j : nat) : list T := zipwith sadd y (block n j Y).

  (** the residual of the stage equations as the code computes it from the answers of the right-hand side *)
  Definition residual_of (Y : list T) (vals : list (list T)) : list T :=
    zipwith ssub Y (vscale dt (vtab (nrows (sc_A sc) * n) (la_mv (kron (sc_A sc) (eye n)) (concat vals)))).
  Definition is_residual (Y R : list T) : Prop :=
    exists vals, length vals = ns /\ (forall j, (j < ns)%nat -> length (nth j vals []) = n /\ fun_answers F (stage_time j) (stage_arg Y j) (nth j vals [])) /\
      length Y = (ns * n)%nat /\ (nrows (sc_A sc) * n = ns * n)%nat /\ R = residual_of Y vals /\ length R = (ns * n)%nat.

  Lemma construct_R_inv Y (w w' : W) R : ncols (sc_A sc) = ns -> length (sc_c sc) = ns -> (0 < ns)%nat ->
    construct_R F y t dt sc Y (eye n) w = (w', Ok R) ->
    (0 < n)%nat /\ is_residual Y R /\ w_out w' = w_out w /\
    (logging = true -> lg (w_st w') = lg (w_st w) ++ map (fun j => CallFun (stage_time j) (stage_arg Y j)) (seq 0 ns)).
  Proof.
    intros HA Hc Hs. unfold construct_R. fold n. intros Hr. apply bind_ok in Hr. destruct Hr as (w1 & Fv & Hf & Hr).
    apply bind_ok in Hr. destruct Hr as (w2 & AF & Ha & Hr). apply lift_ok in Ha. destruct Ha as [-> Ha].
    apply lift_ok in Hr. destruct Hr as [-> Hr]. apply mv_inv in Ha. destruct Ha as (Ha1 & Ha2 & Ha3). rewrite kron_ncols in Ha1.
    rewrite kron_nrows in Ha2, Ha3.
    assert (En : nrows (eye (T := T) n) = n) by reflexivity. assert (Em : ncols (eye (T := T) n) = n) by (unfold ncols, eye, mtab; cbn; rewrite map_length, seq_length; reflexivity).
    rewrite En in * . rewrite Em in * . clear En Em. rewrite HA in Ha1.
    apply vsub_inv in Hr. destruct Hr as (Hr1 & Hr2 & Hr3). rewrite vscale_length in Hr1.
    pose (Inv := fun (i : nat) (wi : W) (Fi : list T) => (i <> 0 -> 0 < n)%nat /\ w_out wi = w_out w /\
       (logging = true -> lg (w_st wi) = lg (w_st w) ++ map (fun j => CallFun (stage_time j) (stage_arg Y j)) (seq 0 i)) /\
       exists vals rest, length vals = i /\ (forall j, (j < i)%nat -> length (nth j vals []) = n /\ fun_answers F (stage_time j) (stage_arg Y j) (nth j vals [])) /\
         Fi = concat vals ++ rest /\ length Fi = length Y).
    assert (HI : Inv ns w1 Fv).
    { change ns with (0 + ns)%nat.
      match type of Hf with foldM ?b _ ?a _ = _ => refine (foldM_seq b Inv 0 ns a w w1 Fv _ _ Hf) end.
      - intros i wi Fi wi' Fi' Hi (I0 & I1 & I2 & vals & rest & I3 & I4 & I5 & I6) Hb.
        apply bind_ok in Hb. destruct Hb as (wa & Yi & Hy & Hb). apply lift_ok in Hy. destruct Hy as [-> Hy].
        apply bind_ok in Hb. destruct Hb as (wa & ci & Hci & Hb). apply lift_ok in Hci. destruct Hci as [-> Hci].
        apply bind_ok in Hb. destruct Hb as (wa & arg & Harg & Hb). apply lift_ok in Harg. destruct Harg as [-> Harg].
        apply bind_ok in Hb. destruct Hb as (wa & v & Hv & Hb). apply lift_ok in Hb. destruct Hb as [-> Hb].
        apply subvec_inv in Hy. destruct Hy as (Hn & Hy1 & Hy2 & Hy3). apply (vget_inv _ _ _ (sZ 0)) in Hci. destruct Hci as [_ Hci].
        apply vadd_inv in Harg. destruct Harg as (Harg1 & Harg2 & _). apply in_world_ok in Hv. destruct Hv as (sv & Hv & ->).
        apply set_subvec_inv in Hb. destruct Hb as (_ & Hb1 & Hb2 & Hb3 & Hb4).
        assert (Et : t +. ci *. dt = stage_time i) by (unfold stage_time; rewrite <- Hci; reflexivity).
        assert (Ea : arg = stage_arg Y i) by (unfold stage_arg, block; rewrite <- Hy2; exact Harg2).
        rewrite Et, Ea in Hv. split; [intros _; exact Hn|]. split; [exact I1|]. split.
        + intros Hl. cbn [w_st]. rewrite seq_S, map_app, app_assoc. simpl map. rewrite <- (I2 Hl).
          specialize (Hlogf Hl (stage_time i) (stage_arg Y i) (w_st wi)). rewrite Hv in Hlogf. exact Hlogf.
        + exists (vals ++ [v]), (skipn (n * i + n) Fi). split; [rewrite app_length, I3; simpl; lia|].
          split.
          * intros j Hj. destruct (Nat.eq_dec j i) as [->|Hne].
            -- rewrite app_nth2, I3, Nat.sub_diag by lia. simpl. split; [exact Hb2|]. exists (w_st wi), sv. exact Hv.
            -- rewrite app_nth1 by lia. apply I4. lia.
          * split; [|lia]. rewrite concat_app. cbn [concat]. rewrite app_nil_r, <- app_assoc. rewrite Hb3. f_equal.
            assert (Lc : length (concat vals) = (n * i)%nat).
            { rewrite (concat_length_const vals n), I3; [reflexivity|]. apply Forall_forall. intros x Hx. apply (In_nth _ _ []) in Hx.
              destruct Hx as (j & Hj & <-). apply I4. lia. }
            rewrite I5, firstn_app, Lc, Nat.sub_diag. rewrite <- Lc, firstn_all. cbn [firstn]. apply app_nil_r.
      - split; [lia|]. split; [reflexivity|]. split; [intros _; rewrite app_nil_r; reflexivity|]. exists [], (repeat junk (length Y)).
        split; [reflexivity|]. split; [intros j Hj; lia|]. split; [reflexivity|apply repeat_length]. }
    destruct HI as (Hn & I1 & I2 & vals & rest & I3 & I4 & I5 & I6). split; [apply Hn; lia|]. split; [|split; [exact I1|exact I2]].
    assert (Lc : length (concat vals) = (n * ns)%nat).
    { rewrite (concat_length_const vals n), I3; [reflexivity|]. apply Forall_forall. intros x Hx. apply (In_nth _ _ []) in Hx.
      destruct Hx as (j & Hj & <-). apply I4. lia. }
    assert (rest = []) as ->. { apply length_zero_iff_nil. rewrite I5, app_length, Lc in Ha1. lia. }
    rewrite app_nil_r in I5. subst Fv.
    exists vals. split; [exact I3|]. split; [exact I4|]. rewrite <- I6, Lc. split; [lia|]. split; [lia|]. split; [|lia].
    unfold residual_of. rewrite Hr2, Ha2. reflexivity.
  Qed.

  (** the factors in use: those of J_Y, unless the factorisation was compiled away *)
  Definition factors (plu : bool) (J_Y : mat T) : mat T * mat T * mat T :=
    if plu && negb ndebug then lu_or_reset J_Y else (mat_empty, mat_empty, mat_empty).
  Definition stage_matrix (J : mat T) : res (mat T) := msub (eye (ns * n)) (mscale dt (kron (sc_A sc) J)).
  Record jac_ok (plu : bool) (J J_Y : mat T) (LUP : mat T * mat T * mat T) : Prop := {
    jo_ans : jac_answers F t y J;
    jo_mat : stage_matrix J = Ok J_Y;
    jo_lu : plu = true -> ndebug = false -> la_lu J_Y <> None;
    jo_fac : LUP = factors plu J_Y }.

  Lemma refresh_inv plu LUP (w w' : W) J J_Y LUP' : (plu && negb ndebug = false -> LUP = (mat_empty, mat_empty, mat_empty)) ->
    refresh_jacobi_matrix F y t dt sc plu LUP w = (w', Ok (J, J_Y, LUP')) ->
    jac_ok plu J J_Y LUP' /\ w_out w' = w_out w /\ (logging = true -> lg (w_st w') = lg (w_st w) ++ [CallJac t y]).
  Proof.
    intros HLUP. unfold refresh_jacobi_matrix. intros Hr. apply bind_ok in Hr. destruct Hr as (w1 & J' & Hj & Hr).
    apply bind_ok in Hr. destruct Hr as (w2 & JY' & Hm & Hr). apply lift_ok in Hm. destruct Hm as [-> Hm].
    apply bind_ok in Hr. destruct Hr as (w2 & L & Hl & Hr). apply ret_ok in Hr. destruct Hr as [-> Hr].
    assert (E1 : J' = J) by (injection Hr; auto). assert (E2 : JY' = J_Y) by (injection Hr; auto). assert (E3 : L = LUP') by (injection Hr; auto). subst J' JY' L. clear Hr.
    apply in_world_ok in Hj. destruct Hj as (s & Hj & ->).
    assert (G : w2 = World s (w_out w) /\ LUP' = factors plu J_Y /\ (plu = true -> ndebug = false -> la_lu J_Y <> None)).
    { unfold factors. destruct (plu && negb ndebug) eqn:E.
      - destruct (la_lu J_Y) eqn:El; [|discriminate]. apply ret_ok in Hl. destruct Hl as [-> <-]. repeat split; discriminate.
      - apply ret_ok in Hl. destruct Hl as [-> <-]. split; [reflexivity|]. split; [apply HLUP; reflexivity|].
        intros E1 E2. rewrite E1, E2 in E. discriminate. }
    destruct G as (-> & G1 & G2). split; [|split; [reflexivity|]].
    - constructor; try assumption. exists (w_st w), s. exact Hj.
    - intros Hl'. specialize (Hlogj Hl' t y (w_st w)). rewrite Hj in Hlogj. exact Hlogj.
  Qed.

  (** One iteration of the stage solver: from [v] along an increment computed with the matrix in force at [v]. *)
  Definition stage_step (adaptive : bool) (v : visit T) : T :=
    if adaptive then sZ 1 /. ssqrt (sZ 1 +. la_dot (v_r v) (v_r v)) else sZ 1.
  Definition stage_move (adaptive plu : bool) (v v' : visit T) : Prop :=
    exists J_Y, jac_ok plu (v_J v) J_Y (factors plu J_Y) /\ stage_increment plu J_Y (factors plu J_Y) (v_r v) = Ok (v_d v') /\
      vadd (v_x v) (vscale (stage_step adaptive v) (v_d v')) = Ok (v_x v').
  Definition stage_converged (xtol2 Rtol2 : T) (v : visit T) : bool := (la_dot (v_r v) (v_r v) <?. Rtol2) || (la_dot (v_d v) (v_d v) <?. xtol2).

  (** the calls between two worlds, and the change of the counters *)
  Definition calls_ok (w w' : W) (f f' j j' : nat) : Prop :=
    w_out w' = w_out w /\
    (logging = true -> exists l, lg (w_st w') = lg (w_st w) ++ l /\ (f' = f + count_fun l)%nat /\ (j' = j + count_jac l)%nat /\
       Forall (fun c => call_time c = t \/ exists k, (k < ns)%nat /\ call_time c = stage_time k) l).
  Lemma calls_refl w f j : calls_ok w w f f j j.
  Proof. split; [reflexivity|]. intros _. exists []. rewrite app_nil_r. cbn. repeat split; try lia. constructor. Qed.
  Lemma count_fun_app (l1 l2 : list (call T)) : count_fun (l1 ++ l2) = (count_fun l1 + count_fun l2)%nat.
  Proof. unfold count_fun. rewrite filter_app, app_length. reflexivity. Qed.
  Lemma count_jac_app (l1 l2 : list (call T)) : count_jac (l1 ++ l2) = (count_jac l1 + count_jac l2)%nat.
  Proof. unfold count_jac. rewrite filter_app, app_length. reflexivity. Qed.
  Lemma calls_trans w1 w2 w3 f1 f2 f3 j1 j2 j3 : calls_ok w1 w2 f1 f2 j1 j2 -> calls_ok w2 w3 f2 f3 j2 j3 -> calls_ok w1 w3 f1 f3 j1 j3.
  Proof.
    intros [A1 A2] [B1 B2]. split; [congruence|]. intros Hl. destruct (A2 Hl) as (l & A3 & A4 & A5 & A6). destruct (B2 Hl) as (l' & B3 & B4 & B5 & B6).
    exists (l ++ l'). rewrite B3, A3, app_assoc, count_fun_app, count_jac_app. repeat split; try lia. apply Forall_app. auto.
  Qed.
  Lemma calls_R w w' f j Y : w_out w' = w_out w ->
    (logging = true -> lg (w_st w') = lg (w_st w) ++ map (fun j => CallFun (stage_time j) (stage_arg Y j)) (seq 0 ns)) -> calls_ok w w' f (f + ns)%nat j j.
  Proof.
    intros H1' H2'. split; [exact H1'|]. intros Hl. eexists. split; [apply H2', Hl|]. clear. unfold count_fun, count_jac.
    assert (G : forall l, length (filter is_fun (map (fun j => CallFun (stage_time j) (stage_arg Y j)) l)) = length l /\
                          length (filter (fun c => negb (is_fun c)) (map (fun j => CallFun (stage_time j) (stage_arg Y j)) l)) = 0%nat).
    { induction l as [|a l [IH1 IH2]]; [split; reflexivity|]. simpl. rewrite IH1, IH2. auto. }
    destruct (G (seq 0 ns)) as [-> ->]. rewrite seq_length. repeat split; try lia. apply Forall_map, Forall_forall. intros k Hk. apply in_seq in Hk.
    right. exists k. split; [lia|reflexivity].
  Qed.
  Lemma calls_J w w' f j : w_out w' = w_out w -> (logging = true -> lg (w_st w') = lg (w_st w) ++ [CallJac t y]) -> calls_ok w w' f f j (S j).
  Proof. intros H1' H2'. split; [exact H1'|]. intros Hl. eexists. split; [apply H2', Hl|]. cbn. repeat split; try lia. constructor; [left; reflexivity|constructor]. Qed.

  Variables (adaptive plu : bool) (maxit refresh : Z) (xtol Rtol : T).
  Hypothesis HA : ncols (sc_A sc) = ns.
  Hypothesis Hc : length (sc_c sc) = ns.
  Hypothesis Hs : (0 < ns)%nat.

  (** the run of the stage solver: the points it visits *)
  Record stage_trace (v0 : visit T) (V : list (visit T)) : Prop := {
    tr_start : v_x v0 = vzeros (ns * n);
    tr_res : Forall (fun v => is_residual (v_x v) (v_r v)) (v0 :: V);
    tr_move : consecutive (stage_move adaptive plu) (v0 :: V);
    tr_open : forall k v, nth_error V k = Some v -> (S k < length V)%nat -> stage_converged (xtol *. xtol) (Rtol *. Rtol) v = false }.

  Definition sg_inv (w0 : W) (f0 j0 : nat) (w : W) (s : stage_state T) : Prop :=
    exists v0 V, stage_trace v0 V /\ v_x (last V v0) = sg_Y s /\ v_r (last V v0) = sg_R s /\ v_J (last V v0) = sg_J s /\
      sg_Rnorm2 s = la_dot (sg_R s) (sg_R s) /\
      jac_ok plu (sg_J s) (sg_J_Y s) (sg_LUP s) /\
      (sg_done s = false -> sg_step s = stage_step adaptive (last V v0)) /\
      sg_iters s = (if sg_done s then Z.of_nat (length V) else Z.of_nat (length V) + 1)%Z /\
      (sg_done s = true -> V <> [] /\ stage_converged (xtol *. xtol) (Rtol *. Rtol) (last V v0) = true /\ (sg_iters s < maxit)%Z) /\
      (sg_done s = false -> Forall (fun v => stage_converged (xtol *. xtol) (Rtol *. Rtol) v = false) V) /\
      (sg_done s = false -> (sg_iters s <= Z.max 1 maxit)%Z) /\
      sg_fun s = (f0 + ns * (1 + length V))%nat /\
      calls_ok w0 w f0 (sg_fun s) j0 (sg_jac s).

  Lemma stage_body_inv w0 f0 j0 w s w' x : sg_inv w0 f0 j0 w s -> (negb (sg_done s) && (sg_iters s <? maxit)%Z) = true ->
    stage_body F y t dt sc adaptive plu refresh (xtol *. xtol) (Rtol *. Rtol) s w = (w', Ok x) ->
    exists s', x = inl s' /\ sg_inv w0 f0 j0 w' s'.
  Proof.
    intros (v0 & V & [T1 T2 T3 T4] & I1 & I2 & I3 & I4 & I5 & I6 & I7 & I8 & I9 & I10 & I11 & I12) Hcond Hb.
    apply andb_true_iff in Hcond. destruct Hcond as [Hnd Hit]. apply negb_true_iff in Hnd. apply Z.ltb_lt in Hit.
    specialize (I6 Hnd). rewrite Hnd in I7. specialize (I9 Hnd). clear I8 I10.
    unfold stage_body in Hb. apply bind_ok in Hb. destruct Hb as (w1 & dY & Hd & Hb). apply lift_ok in Hd. destruct Hd as [-> Hd].
    apply bind_ok in Hb. destruct Hb as (w1 & xn & Hx & Hb). apply lift_ok in Hx. destruct Hx as [-> Hx]. rewrite dot_self in Hx. injection Hx as <-.
    apply bind_ok in Hb. destruct Hb as (w1 & Y & HY & Hb). apply lift_ok in HY. destruct HY as [-> HY].
    apply bind_ok in Hb. destruct Hb as (w1 & R & HR & Hb). apply bind_ok in Hb. destruct Hb as (w2 & Rn & Hn & Hb). apply lift_ok in Hn. destruct Hn as [-> Hn].
    rewrite dot_self in Hn. injection Hn as <-.
    apply construct_R_inv in HR; try assumption. destruct HR as (_ & R1 & R2 & R3).
    pose proof (calls_trans _ _ _ _ _ _ _ _ _ I12 (calls_R w w1 (sg_fun s) (sg_jac s) Y R2 R3)) as C1. fold ns in Hb.
    assert (Mv : forall J', stage_move adaptive plu (last V v0) (Visit Y R J' dY)).
    { intros J'. exists (sg_J_Y s). destruct I5 as [Q1 Q2 Q3 Q4]. rewrite I3, I2. cbn [v_d v_x]. rewrite I1, <- I6, <- Q4.
      split; [constructor; assumption|]. split; assumption. }
    assert (Res : Forall (fun v => is_residual (v_x v) (v_r v)) (v0 :: V) -> forall J', Forall (fun v => is_residual (v_x v) (v_r v)) (v0 :: V ++ [Visit Y R J' dY])).
    { intros HF J'. change (v0 :: V ++ [Visit Y R J' dY]) with ((v0 :: V) ++ [Visit Y R J' dY]). apply Forall_app. split; [exact HF|]. constructor; [exact R1|constructor]. }
    assert (Tr : forall J', stage_trace v0 (V ++ [Visit Y R J' dY])).
    { intros J'. constructor; [exact T1|apply Res, T2|apply consecutive_cons_snoc; [exact T3|apply Mv]|].
      intros k v Hk Hl. rewrite app_length in Hl. simpl in Hl. rewrite nth_error_app1 in Hk by lia. rewrite Forall_forall in I9. apply I9.
      apply (nth_error_In _ _ Hk). }
    destruct ((la_dot R R <?. Rtol *. Rtol) || (la_dot dY dY <?. xtol *. xtol)) eqn:Econv.
    - apply ret_ok in Hb. destruct Hb as [-> <-]. eexists. split; [reflexivity|].
      exists v0, (V ++ [Visit Y R (sg_J s) dY]). cbn [sg_Y sg_R sg_J sg_J_Y sg_LUP sg_Rnorm2 sg_done sg_step sg_iters sg_fun sg_jac].
      rewrite last_last, app_length. cbn [v_x v_r v_J length]. split; [apply Tr|]. repeat (split; [reflexivity|]). split; [exact I5|]. split; [discriminate|].
      split; [lia|]. split; [|split; [discriminate|]; split; [discriminate|]; split; [rewrite I11; lia|exact C1]]. intros _. split; [destruct V; discriminate|].
      split; [exact Econv|exact Hit].
    - assert (Open' : forall J', Forall (fun v => stage_converged (xtol *. xtol) (Rtol *. Rtol) v = false) (V ++ [Visit Y R J' dY])).
      { intros J'. apply Forall_app. split; [exact I9|]. constructor; [exact Econv|constructor]. }
      destruct (refresh =? 0)%Z eqn:Er; [discriminate|]. destruct (Z.rem (sg_iters s) refresh =? 0)%Z.
      + apply bind_ok in Hb. destruct Hb as (w2 & [[J' JY'] LUP'] & Hf & Hb). apply ret_ok in Hb. destruct Hb as [-> <-].
        apply refresh_inv in Hf; [|intros Ep; destruct I5 as [_ _ _ ->]; unfold factors; rewrite Ep; reflexivity].
        destruct Hf as (F1 & F2 & F3). eexists. split; [reflexivity|].
        exists v0, (V ++ [Visit Y R J' dY]). cbn [sg_Y sg_R sg_J sg_J_Y sg_LUP sg_Rnorm2 sg_done sg_step sg_iters sg_fun sg_jac].
        rewrite last_last, app_length. cbn [v_x v_r v_J length]. split; [apply Tr|]. repeat (split; [reflexivity|]). split; [exact F1|].
        split; [unfold stage_step; cbn [v_r]; destruct adaptive; [reflexivity|rewrite I6; reflexivity]|]. split; [lia|]. split; [discriminate|].
        split; [intros _; apply Open'|]. split; [intros _; lia|]. split; [rewrite I11; lia|].
        eapply calls_trans; [exact C1|]. apply calls_J; assumption.
      + apply ret_ok in Hb. destruct Hb as [-> <-]. eexists. split; [reflexivity|].
        exists v0, (V ++ [Visit Y R (sg_J s) dY]). cbn [sg_Y sg_R sg_J sg_J_Y sg_LUP sg_Rnorm2 sg_done sg_step sg_iters sg_fun sg_jac].
        rewrite last_last, app_length. cbn [v_x v_r v_J length]. split; [apply Tr|]. repeat (split; [reflexivity|]). split; [exact I5|].
        split; [unfold stage_step; cbn [v_r]; destruct adaptive; [reflexivity|rewrite I6; reflexivity]|]. split; [lia|]. split; [discriminate|].
        split; [intros _; apply Open'|]. split; [intros _; lia|]. split; [rewrite I11; lia|exact C1].
  Qed.

  (** what the stage solver returns *)
  Record stage_done (w w' : W) (f0 j0 : nat) (sr : stage_result T) (v0 : visit T) (V : list (visit T)) : Prop := {
    sd_trace : stage_trace v0 V;
    sd_dim : (0 < n)%nat;
    sd_Y : sr_Y sr = v_x (last V v0);
    sd_J : sr_J sr = v_J (last V v0);
    sd_res : sr_res sr = la_dot (v_r (last V v0)) (v_r (last V v0));
    sd_jac : exists J_Y, jac_ok plu (sr_J sr) J_Y (factors plu J_Y);
    sd_status : (sr_status sr = Newton.SUCCESS /\ V <> [] /\ sr_iters sr = Z.of_nat (length V) /\ (sr_iters sr < maxit)%Z /\
                   stage_converged (xtol *. xtol) (Rtol *. Rtol) (last V v0) = true) \/
                (sr_status sr = MAXIT_EXCEEDED /\ sr_iters sr = Z.max 1 maxit /\ Z.of_nat (length V) = (Z.max 1 maxit - 1)%Z /\
                   Forall (fun v => stage_converged (xtol *. xtol) (Rtol *. Rtol) v = false) V);
    sd_fun : sr_fun sr = (f0 + ns * (1 + length V))%nat;
    sd_calls : calls_ok w w' f0 (sr_fun sr) j0 (sr_jac sr) }.

  Lemma newton_solve_stages_inv w w' f0 j0 sr : newton_solve_stages F y t dt sc adaptive plu maxit refresh xtol Rtol f0 j0 w = (w', Ok sr) ->
    exists v0 V, stage_done w w' f0 j0 sr v0 V.
  Proof.
    unfold newton_solve_stages. fold n ns. intros Hr. apply bind_ok in Hr. destruct Hr as (w1 & [[J JY] LUP] & Hj & Hr).
    apply bind_ok in Hr. destruct Hr as (w2 & R & HR & Hr). apply bind_ok in Hr. destruct Hr as (w3 & Rn & Hn & Hr). apply lift_ok in Hn.
    destruct Hn as [-> Hn]. rewrite dot_self in Hn. injection Hn as <-. apply bind_ok in Hr. destruct Hr as (w3 & r & Hw & Hr).
    apply refresh_inv in Hj; [|reflexivity]. destruct Hj as (J1 & J2 & J3). apply construct_R_inv in HR; try assumption. destruct HR as (Hn & R1 & R2 & R3).
    pose proof (calls_trans _ _ _ _ _ _ _ _ _ (calls_J w w1 f0 j0 J2 J3) (calls_R w1 w2 f0 (S j0) _ R2 R3)) as C1.
    match type of Hw with while ?c ?b ?f ?s _ = _ =>
      assert (WI : match r with inl s' => sg_inv w f0 j0 w3 s' /\ c s' = false | inr _ => False end);
      [refine (while_inv c b (sg_inv w f0 j0) (fun _ _ => False) f s w2 w3 r _ _ _ Hw)|] end.
    - intros wa s wb s' HI Hcd Hb. destruct (stage_body_inv _ _ _ _ _ _ _ HI Hcd Hb) as (s1 & E & HI'). injection E as <-. exact HI'.
    - intros wa s wb s' HI Hcd Hb. destruct (stage_body_inv _ _ _ _ _ _ _ HI Hcd Hb) as (s1 & E & HI'). discriminate.
    - exists (Visit (vzeros (ns * n)) R J []), []. cbn [sg_Y sg_R sg_J sg_J_Y sg_LUP sg_Rnorm2 sg_done sg_step sg_iters sg_fun sg_jac last v_x v_r v_J length].
      split; [constructor; [reflexivity|constructor; [exact R1|constructor]|apply consecutive_one|intros k v Hk; destruct k; discriminate]|].
      repeat (split; [reflexivity|]). split; [exact J1|]. repeat (split; [reflexivity|]). split; [discriminate|]. split; [constructor|]. split; [lia|].
      split; [lia|exact C1].
    - destruct r as [s|[]]. destruct WI as [(v0 & V & T1 & I1 & I2 & I3 & I4 & I5 & I6 & I7 & I8 & I9 & I10 & I11 & I12) Hcd].
      apply ret_ok in Hr. destruct Hr as [-> <-]. exists v0, V.
      constructor; cbn [sr_status sr_Y sr_J sr_iters sr_res sr_fun sr_jac]; try assumption; try (symmetry; assumption).
      + rewrite I4, I2. reflexivity.
      + exists (sg_J_Y s). destruct I5 as [Q1 Q2 Q3 Q4]. constructor; auto.
      + destruct (sg_done s) eqn:Ed.
        * left. destruct (I8 eq_refl) as (K1 & K2 & K3). auto.
        * right. simpl in Hcd. apply Z.ltb_ge in Hcd. specialize (I10 eq_refl). specialize (I9 eq_refl). split; [reflexivity|]. split; [lia|]. split; [lia|exact I9].
  Qed.
End Stage.
