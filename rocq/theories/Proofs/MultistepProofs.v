(** Runs of adams_bashforth and bdf, in every arithmetic. *)
From Verif Require Import Model.Base Model.Scalar Model.LinAlg Model.CyclicBuffer Model.Newton Model.Enums Model.Options Model.IrkCoeffs Model.Irk Model.Multistep.
From Verif Require Import Spec.Sums Spec.IrkSpec Spec.MultistepSpec.
From Verif Require Import Proofs.LoopProofs Proofs.CyclicBufferProofs Proofs.IrkResults.
Local Open Scope sc_scope.
Local Open Scope mon_scope.

Lemma repeat_snoc {A} (x : A) n : repeat x n ++ [x] = repeat x (S n).
Proof. induction n; simpl; [reflexivity|]. rewrite IHn. reflexivity. Qed.
Lemma nth_error_repeat' {A} (x : A) n i : (i < n)%nat -> nth_error (repeat x n) i = Some x.
Proof. revert n. induction i; intros [|n] Hi; simpl; try lia; [reflexivity|apply IHi; lia]. Qed.
Lemma rev_repeat' {A} (x : A) n : rev (repeat x n) = repeat x n.
Proof. induction n; [reflexivity|]. simpl. rewrite IHn. apply repeat_snoc. Qed.

Section Multi.
  Context {T : Type} `{Scalar T} `{LinAlg T} `{Env T} {St : Type}.
  Local Notation W := (world T St).

  Lemma grid_snoc n (t h : T) : grid (S n) t h = grid n t h ++ [gtime t h n].
  Proof. unfold grid. rewrite seq_S, map_app. reflexivity. Qed.
  Lemma grid_length n (t h : T) : length (grid n t h) = n.
  Proof. unfold grid. rewrite map_length, seq_length. reflexivity. Qed.
  Lemma grid_nth n (t h : T) i d : (i < n)%nat -> nth i (grid n t h) d = gtime t h i.
  Proof. intros Hi. unfold grid. rewrite (nth_indep _ d (gtime t h 0)) by (rewrite map_length, seq_length; exact Hi). rewrite map_nth, seq_nth by exact Hi. reflexivity. Qed.

  Lemma bootstrap_values fuel (F : functor T St) order y t dt (w w' : W) ts ys :
    bootstrap_history fuel F order y t dt w = (w', Ok (ts, ys)) ->
    let k := Nat.max 1 (Z.to_nat order) in ts = grid k t dt /\ ys = repeat y k.
  Proof.
    intros Hr k. unfold bootstrap_history in Hr. apply bind_ok in Hr. destruct Hr as (w1 & [[t' ts'] ys'] & Hf & Hr).
    apply ret_ok in Hr. destruct Hr as [-> Hr]. cbn [fst snd] in Hr. injection Hr as <- <-.
    pose (I := fun (i : nat) (_ : W) (s : T * list T * list (list T)) =>
       s = (gtime t dt (i - 1), grid i t dt, repeat y i)).
    assert (HI : I (1 + (Z.to_nat order - 1))%nat w1 (t', ts', ys')).
    { refine (foldM_seq _ I _ _ _ _ _ _ _ _ Hf); [|reflexivity].
      intros i v s v' s' Hi -> Hb. cbv beta iota in Hb.
      rewrite (nth_error_repeat' y i (i - 1)) in Hb by lia.
      apply bind_ok in Hb. destruct Hb as (v1 & yi & Hy & Hb). apply lift_ok in Hy. destruct Hy as [-> Hy]. injection Hy as <-.
      apply bind_ok in Hb. destruct Hb as (v2 & sol & Hs & Hb).
      destruct (irk_aligned _ _ _ _ _ _ _ _ _ _ _ _ Hs) as (atts & _ & _ & Et & Ey & _).
      change (store_in_vectors bootstrap_output) with false in Et, Ey. cbn [map] in Et, Ey. rewrite Et, Ey in Hb. cbn [length Nat.sub nth_error] in Hb.
      apply bind_ok in Hb. destruct Hb as (v3 & yn & Hy & Hb). apply lift_ok in Hy. destruct Hy as [-> Hy]. injection Hy as <-.
      apply ret_ok in Hb. destruct Hb as [-> <-]. unfold I.
      replace (S i - 1)%nat with (S (i - 1)) by lia. cbn [gtime].
      rewrite repeat_snoc, grid_snoc. replace (gtime t dt i) with (gtime t dt (S (i - 1))) by (f_equal; lia). reflexivity. }
    unfold I in HI. injection HI as _ -> ->. replace k with (S (Z.to_nat order - 1)) by (unfold k; lia). split; reflexivity.
  Qed.

  (** loading the starting values *)
  Lemma load_values p (b : cbuf (list T)) k (y : list T) t0 h t' y' b' : (1 <= k)%nat -> inv [] p b [] ->
    load_history (grid k t0 h, repeat y k) b = Ok (t', y', b') ->
    t' = gtime t0 h (k - 1) /\ y' = y /\ inv [] p b' (rev (repeat y k)).
  Proof.
    intros Hk Hb Hl. unfold load_history in Hl. cbn [fst snd] in Hl. apply rbind_ok in Hl. destruct Hl as (b1 & Hp & Hl).
    destruct (pushes_inv [] p (repeat y k) b [] Hb) as (b2 & Hp2 & Hi). rewrite Hp in Hp2. injection Hp2 as <-.
    rewrite grid_length, nth_error_repeat' in Hl by lia.
    rewrite (nth_error_nth' (grid k t0 h) t0) in Hl by (rewrite grid_length; lia).
    rewrite grid_nth in Hl by lia. injection Hl as <- <- <-. rewrite app_nil_r in Hi. auto.
  Qed.

  (** The main loops: [Step ys t y] relates the values so far, the time of the last of them, and the next value. *)
  Section Loop.
    Variables (t0 t1 h : T) (y0 : list T) (k : nat) (p : Z).
    Variable body : ms_state T -> M W (ms_state T + basic_output T).
    Variables (Step : list (list T) -> T -> list T -> Prop) (Stop : list (list T) -> T -> Prop).
    Hypothesis Hk : (1 <= k)%nat.

    Record ms_inv (s : ms_state T) : Prop := {
      mi_count : (k <= length (ms_ys s))%nat;
      mi_ts : ms_ts s = grid (length (ms_ys s)) t0 h;
      mi_t : ms_t s = gtime t0 h (length (ms_ys s) - 1);
      mi_y : ms_y s = last (ms_ys s) [];
      mi_hist : inv [] p (ms_hist s) (rev (ms_ys s));
      mi_first : firstn k (ms_ys s) = repeat y0 k;
      mi_steps : forall i, (k <= i < length (ms_ys s))%nat ->
        Step (firstn i (ms_ys s)) (gtime t0 h (i - 1)) (nth i (ms_ys s) []) /\ (gtime t0 h (i - 1) <?. t1) = true }.

    Hypothesis Hbody : forall s (w w' : W) r, ms_inv s -> body s w = (w', Ok r) ->
      match r with
      | inl s' => exists y b n, cb_push (ms_hist s) y = Ok b /\ Step (ms_ys s) (ms_t s) y /\
          s' = MsState (ms_t s +. h) y b (ms_ts s ++ [ms_t s +. h]) (ms_ys s ++ [y]) n
      | inr out => out = BasicOutput INTERNAL_SOLVE_FAILURE (ms_ts s) (ms_ys s) /\ Stop (ms_ys s) (ms_t s)
      end.

    (** what a returned solution looks like *)
    Record ms_sol (out : basic_output T) : Prop := {
      so_count : (k <= length (bo_y_vals out))%nat;
      so_ts : bo_t_vals out = grid (length (bo_y_vals out)) t0 h;
      so_first : firstn k (bo_y_vals out) = repeat y0 k;
      so_steps : forall i, (k <= i < length (bo_y_vals out))%nat ->
        Step (firstn i (bo_y_vals out)) (gtime t0 h (i - 1)) (nth i (bo_y_vals out) []) /\ (gtime t0 h (i - 1) <?. t1) = true;
      so_end : let tl := gtime t0 h (length (bo_y_vals out) - 1) in
        (bo_status out = SUCCESS /\ (tl <?. t1) = false) \/
        (bo_status out = INTERNAL_SOLVE_FAILURE /\ (tl <?. t1) = true /\ Stop (bo_y_vals out) tl) }.

    Lemma ms_step s (w w' : W) s' : ms_inv s -> (ms_t s <?. t1) = true -> body s w = (w', Ok (inl s')) -> ms_inv s'.
    Proof.
      intros HI Hc Hb. destruct (Hbody _ _ _ _ HI Hb) as (y & b & n & Hp & HS & ->).
      destruct HI as [H3 H4 H5 H6 H7 H8 H9]. destruct (push_inv _ _ _ _ y H7) as (b' & Hp' & Hi). rewrite Hp in Hp'. injection Hp' as <-.
      assert (En : length (ms_ys s ++ [y]) = S (length (ms_ys s))) by (rewrite app_length; simpl; lia).
      assert (Et : ms_t s +. h = gtime t0 h (length (ms_ys s))).
      { rewrite H5. destruct (length (ms_ys s)) as [|q]; [lia|]. simpl. rewrite Nat.sub_0_r. reflexivity. }
      constructor; cbn [ms_ys ms_ts ms_t ms_y ms_hist]; rewrite ?En.
      - lia.
      - rewrite H4, Et, grid_snoc. reflexivity.
      - rewrite Et. f_equal. lia.
      - rewrite last_last. reflexivity.
      - rewrite rev_app_distr. exact Hi.
      - rewrite firstn_app. replace (k - length (ms_ys s))%nat with 0%nat by lia. rewrite firstn_O, app_nil_r. exact H8.
      - intros i Hi'. destruct (Nat.eq_dec i (length (ms_ys s))) as [->|Hne].
        + rewrite firstn_app, Nat.sub_diag, firstn_all, firstn_O, app_nil_r, app_nth2, Nat.sub_diag by lia. cbn [nth]. rewrite <- H5. auto.
        + rewrite firstn_app. replace (i - length (ms_ys s))%nat with 0%nat by lia. rewrite firstn_O, app_nil_r, app_nth1 by lia. apply H9. lia.
    Qed.

    Lemma ms_run fuel s (w w' : W) r : ms_inv s -> while (fun s => ms_t s <?. t1) body fuel s w = (w', Ok r) ->
      ms_sol (match r with inl s' => BasicOutput SUCCESS (ms_ts s') (ms_ys s') | inr out => out end).
    Proof.
      intros HI Hw.
      pose proof (while_inv (fun s => ms_t s <?. t1) body (fun _ s => ms_inv s) (fun _ out => ms_sol out) fuel s w w' r) as HW.
      assert (HX : match r with inl s' => ms_inv s' /\ (ms_t s' <?. t1) = false | inr r => ms_sol r end).
      { refine (HW _ _ HI Hw).
        - intros v s1 v' s2 G1 G2 G3. exact (ms_step _ _ _ _ G1 G2 G3).
        - intros v s1 v' out G1 G2 G3. destruct (Hbody _ _ _ _ G1 G3) as (-> & HS). destruct G1 as [K1 K2 K3 K4 K5 K6 K7].
          constructor; cbn [bo_y_vals bo_t_vals bo_status]; auto. right. rewrite <- K3. auto. }
      destruct r as [s'|out]; [|exact HX]. destruct HX as [[K1 K2 K3 K4 K5 K6 K7] Hc].
      constructor; cbn [bo_y_vals bo_t_vals bo_status]; auto. left. rewrite <- K3. auto.
    Qed.
  End Loop.

  (** one step of Adams-Bashforth, from the values so far *)
  Definition ab_Step (F : functor T St) (order : Z) (h : T) (ys : list (list T)) (t : T) (y : list T) : Prop :=
    exists b w w', inv [] order b (rev ys) /\ adams_bashforth_step F order (last ys []) t h b w = (w', Ok y).

  Lemma ab_body_ok (F : functor T St) (order : Z) (t0 t1 h : T) y0 k s (w w' : W) r :
    ms_inv t0 t1 h y0 k order (ab_Step F order h) s -> ab_body F order h s w = (w', Ok r) ->
    match r with
    | inl s' => exists y b n, cb_push (ms_hist s) y = Ok b /\ ab_Step F order h (ms_ys s) (ms_t s) y /\
        s' = MsState (ms_t s +. h) y b (ms_ts s ++ [ms_t s +. h]) (ms_ys s ++ [y]) n
    | inr out => out = BasicOutput INTERNAL_SOLVE_FAILURE (ms_ts s) (ms_ys s) /\ False
    end.
  Proof.
    intros HI Hb. unfold ab_body in Hb.
    apply bind_ok in Hb. destruct Hb as (w1 & y & Hs & Hb). apply bind_ok in Hb. destruct Hb as (w2 & b & Hp & Hb).
    apply lift_ok in Hp. destruct Hp as [-> Hp]. apply ret_ok in Hb. destruct Hb as [_ <-].
    exists y, b, (ms_newton s). split; [exact Hp|]. split; [|reflexivity].
    exists (ms_hist s), w, w1. split; [apply (mi_hist _ _ _ _ _ _ _ _ HI)|]. rewrite <- (mi_y _ _ _ _ _ _ _ _ HI). exact Hs.
  Qed.

  Lemma ab_run fuel (F : functor T St) t0 t1 y0 order dt (w w' : W) sol :
    adams_bashforth fuel F t0 t1 y0 order dt w = (w', Ok sol) ->
    let h := fitted_step t0 t1 dt in
    (1 <= order)%Z /\ (ndebug = false -> (h >?. sZ 0) = true) /\
    ms_sol t0 t1 h y0 (Z.to_nat order) (ab_Step F order h) (fun _ _ => False) sol.
  Proof.
    intros Hr h. unfold adams_bashforth in Hr. cbv zeta in Hr. fold (fitted_step t0 t1 dt) in Hr. fold h in Hr.
    apply bind_ok in Hr. destruct Hr as (w1 & [] & Ha & Hr). apply assert_ok in Ha. destruct Ha as [-> Ha].
    apply bind_ok in Hr. destruct Hr as (w1 & b0 & Hm & Hr). apply lift_ok in Hm. destruct Hm as [-> Hm].
    apply bind_ok in Hr. destruct Hr as (w1 & [ts ys] & Hbs & Hr). apply bootstrap_values in Hbs. cbv zeta in Hbs.
    apply bind_ok in Hr. destruct Hr as (w2 & [[t y] b] & Hl & Hr). apply lift_ok in Hl. destruct Hl as [-> Hl].
    assert (Ho : (1 <= order)%Z).
    { destruct (Z_lt_le_dec order 0) as [Hn|Hn].
      - unfold cb_make in Hm. apply Z.ltb_lt in Hn. rewrite Hn in Hm. discriminate.
      - destruct (Z.eq_dec order 0) as [->|]; [|lia]. exfalso. destruct Hbs as [-> ->]. cbn in Hm. injection Hm as <-. cbn in Hl. discriminate. }
    replace (Nat.max 1 (Z.to_nat order)) with (Z.to_nat order) in Hbs by lia.
    destruct Hbs as [-> ->]. destruct (inv_make (A := list T) [] order Ho) as (b1 & Hm' & Hi0). rewrite Hm in Hm'. injection Hm' as <-.
    assert (Hk : (1 <= Z.to_nat order)%nat) by lia.
    destruct (load_values order b0 (Z.to_nat order) y0 t0 h t y b Hk Hi0 Hl) as (-> & -> & Hi).
    apply bind_ok in Hr. destruct Hr as (w3 & r & Hw & Hr).
    split; [exact Ho|]. split; [exact Ha|].
    assert (HI0 : ms_inv t0 t1 h y0 (Z.to_nat order) order (ab_Step F order h)
       (MsState (gtime t0 h (Z.to_nat order - 1)) y0 b (grid (Z.to_nat order) t0 h) (repeat y0 (Z.to_nat order)) status_default)).
    { constructor; cbn [ms_ys ms_ts ms_t ms_y ms_hist]; rewrite ?repeat_length; auto; try lia.
      - replace (Z.to_nat order) with (S (Z.to_nat order - 1)) by lia. rewrite <- repeat_snoc, last_last. reflexivity.
      - rewrite <- (repeat_length y0 (Z.to_nat order)) at 1. apply firstn_all. }
    pose proof (ms_run t0 t1 h y0 (Z.to_nat order) order _ _ (fun _ _ => False) Hk (fun s w w' r => ab_body_ok F order t0 t1 h y0 (Z.to_nat order) s w w' r) _ _ _ _ _ HI0 Hw) as HX.
    destruct r; apply ret_ok in Hr; destruct Hr as [_ <-]; exact HX.
  Qed.

  (** one step of BDF: the Newton iteration behind it *)
  Definition bdf_Step (F : functor T St) (order : Z) (n0 : nat) (h : T) (ys : list (list T)) (t : T) (y : list T) : Prop :=
    exists b part s s' st0 st pr, inv [] (order + 1) b (rev ys) /\
      interpolation_part n0 (nth (Z.to_nat order - 1) bdf_coeffs []) b = Ok part /\
      newton_iterate (newton_multistep_helper F (length (last ys [])) (h *. nth (Z.to_nat order - 1) bdf_rhs_weight (sZ 0)) (t +. h) part)
        (last ys []) bdf_newton_options st0 true s = (s', Ok (y, st, pr)) /\ st_conv st = Newton.SUCCESS.
  Definition bdf_Stop (F : functor T St) (order : Z) (n0 : nat) (h : T) (ys : list (list T)) (t : T) : Prop :=
    exists b part s s' st0 y st pr, inv [] (order + 1) b (rev ys) /\
      interpolation_part n0 (nth (Z.to_nat order - 1) bdf_coeffs []) b = Ok part /\
      newton_iterate (newton_multistep_helper F (length (last ys [])) (h *. nth (Z.to_nat order - 1) bdf_rhs_weight (sZ 0)) (t +. h) part)
        (last ys []) bdf_newton_options st0 true s = (s', Ok (y, st, pr)) /\ st_conv st <> Newton.SUCCESS.

  Lemma bdf_body_ok (F : functor T St) (order : Z) n0 (t0 t1 h : T) y0 k s (w w' : W) r :
    ms_inv t0 t1 h y0 k (order + 1) (bdf_Step F order n0 h) s -> bdf_body F order n0 h s w = (w', Ok r) ->
    match r with
    | inl s' => exists y b n, cb_push (ms_hist s) y = Ok b /\ bdf_Step F order n0 h (ms_ys s) (ms_t s) y /\
        s' = MsState (ms_t s +. h) y b (ms_ts s ++ [ms_t s +. h]) (ms_ys s ++ [y]) n
    | inr out => out = BasicOutput INTERNAL_SOLVE_FAILURE (ms_ts s) (ms_ys s) /\ bdf_Stop F order n0 h (ms_ys s) (ms_t s)
    end.
  Proof.
    intros HI Hb. unfold bdf_body in Hb.
    apply bind_ok in Hb. destruct Hb as (w1 & part & Hp & Hb). apply lift_ok in Hp. destruct Hp as [-> Hp]. cbv zeta in Hb.
    apply bind_ok in Hb. destruct Hb as (w1 & [[yn st] pr] & Hn & Hb).
    unfold on_copy in Hn. destruct (newton_iterate _ _ _ _ _ (w_st w)) as [s1 rr] eqn:En. injection Hn as <- ->.
    rewrite (mi_y _ _ _ _ _ _ _ _ HI) in En. pose proof (mi_hist _ _ _ _ _ _ _ _ HI) as Hi.
    destruct (Z.eqb_spec (st_conv st) Newton.SUCCESS) as [Es|Es]; cbn [negb] in Hb.
    - apply bind_ok in Hb. destruct Hb as (w2 & b & Hq & Hb). apply lift_ok in Hq. destruct Hq as [-> Hq]. apply ret_ok in Hb. destruct Hb as [_ <-].
      exists yn, b, st. split; [exact Hq|]. split; [|reflexivity]. exists (ms_hist s), part, (w_st w), s1, (ms_newton s), st, pr. auto.
    - apply ret_ok in Hb. destruct Hb as [_ <-]. split; [reflexivity|]. exists (ms_hist s), part, (w_st w), s1, (ms_newton s), yn, st, pr. auto.
  Qed.

  Lemma bdf_invalid fuel (F : functor T St) t0 t1 y0 order dt (w : W) :
    (order <= 0 \/ 6 < order)%Z -> bdf fuel F t0 t1 y0 order dt w = (w, Ok (BasicOutput GENERAL_ERROR [] [])).
  Proof.
    intros Ho. unfold bdf. rewrite Z.gtb_ltb. destruct (Z.ltb_spec 6 order); [reflexivity|]. destruct (Z.leb_spec order 0); [reflexivity|lia].
  Qed.

  Lemma bdf_run fuel (F : functor T St) t0 t1 y0 order dt (w w' : W) sol :
    bdf fuel F t0 t1 y0 order dt w = (w', Ok sol) -> (1 <= order <= 6)%Z ->
    let h := fitted_step t0 t1 dt in
    (ndebug = false -> (h >?. sZ 0) = true) /\
    ms_sol t0 t1 h y0 (Z.to_nat order + 1) (bdf_Step F order (length y0) h) (bdf_Stop F order (length y0) h) sol.
  Proof.
    intros Hr Ho h. unfold bdf in Hr. rewrite Z.gtb_ltb in Hr. destruct (Z.ltb_spec 6 order); [lia|]. destruct (Z.leb_spec order 0); [lia|].
    cbv zeta in Hr. fold (fitted_step t0 t1 dt) in Hr. fold h in Hr.
    apply bind_ok in Hr. destruct Hr as (w1 & [] & Ha & Hr). apply assert_ok in Ha. destruct Ha as [-> Ha].
    apply bind_ok in Hr. destruct Hr as (w1 & b0 & Hm & Hr). apply lift_ok in Hm. destruct Hm as [-> Hm].
    apply bind_ok in Hr. destruct Hr as (w1 & [ts ys] & Hbs & Hr). apply bootstrap_values in Hbs. cbv zeta in Hbs.
    apply bind_ok in Hr. destruct Hr as (w2 & [[t y] b] & Hl & Hr). apply lift_ok in Hl. destruct Hl as [-> Hl].
    set (k := (Z.to_nat order + 1)%nat). assert (Hk : (1 <= k)%nat) by (unfold k; lia).
    replace (Nat.max 1 (Z.to_nat (order + 1))) with k in Hbs by (unfold k; lia).
    assert (Ho' : (1 <= order + 1)%Z) by lia.
    destruct Hbs as [-> ->]. destruct (inv_make (A := list T) [] (order + 1) Ho') as (b1 & Hm' & Hi0). rewrite Hm in Hm'. injection Hm' as <-.
    destruct (load_values (order + 1) b0 k y0 t0 h t y b Hk Hi0 Hl) as (-> & -> & Hi).
    apply bind_ok in Hr. destruct Hr as (w3 & r & Hw & Hr).
    split; [exact Ha|].
    assert (HI0 : ms_inv t0 t1 h y0 k (order + 1) (bdf_Step F order (length y0) h)
       (MsState (gtime t0 h (k - 1)) y0 b (grid k t0 h) (repeat y0 k) status_default)).
    { constructor; cbn [ms_ys ms_ts ms_t ms_y ms_hist]; rewrite ?repeat_length; auto; try lia.
      - replace k with (S (k - 1)) by lia. rewrite <- repeat_snoc, last_last. reflexivity.
      - rewrite <- (repeat_length y0 k) at 1. apply firstn_all. }
    pose proof (ms_run t0 t1 h y0 k (order + 1) _ _ (bdf_Stop F order (length y0) h) Hk (fun s w w' r => bdf_body_ok F order (length y0) t0 t1 h y0 k s w w' r) _ _ _ _ _ HI0 Hw) as HX.
    destruct r; apply ret_ok in Hr; destruct Hr as [_ <-]; exact HX.
  Qed.
End Multi.
