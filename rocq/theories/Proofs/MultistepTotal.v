(** The multistep solvers return whenever their starter does. *)
From Coq Require Import Reals Lra.
From Verif Require Import Model.Base Model.Scalar Model.LinAlg Model.CyclicBuffer Model.Newton Model.Enums Model.Options Model.Coeffs Model.IrkCoeffs Model.Irk Model.Multistep.
From Verif Require Import Spec.Sums Spec.Observe Spec.IrkSpec Spec.MultistepSpec.
From Verif Require Import Proofs.LoopProofs Proofs.SumsProofs Proofs.CyclicBufferProofs Proofs.RVec Proofs.ErkProofs Proofs.ErkReal Proofs.ErkTotal Proofs.NewtonProofs Proofs.NewtonReal Proofs.NewtonLog Proofs.NewtonTotal Proofs.IrkResults Proofs.MultistepProofs Proofs.MultistepReal Proofs.MultistepResults.
Local Open Scope sc_scope.
Local Open Scope mon_scope.

Section Total.
  Context {T : Type} `{Scalar T} `{LinAlg T} `{Env T} {St : Type}.
  Local Notation W := (world T St).
  Variables (F : functor T St) (n : nat).
  Hypothesis HF : returns_dim F n.

  (** more fuel does not change what irk::odeint returns *)
  Lemma irk_more f f' t0 t1 y0 opts oo m dt (w w' : W) sol : (f <= f')%nat ->
    irk_odeint f F t0 t1 y0 opts oo m dt w = (w', Ok sol) -> irk_odeint f' F t0 t1 y0 opts oo m dt w = (w', Ok sol).
  Proof.
    intros Hf. unfold irk_odeint. intros Hr.
    apply bind_ok in Hr. destruct Hr as (w1 & sc & K1 & Hr). rewrite (bind_run _ _ _ _ _ K1). cbv zeta in Hr |- * .
    apply bind_ok in Hr. destruct Hr as (w2 & u & K2 & Hr). rewrite (bind_run _ _ _ _ _ K2).
    set (o := if io_adaptive opts && (length (sc_b2 sc) =? 0)%nat then _ else opts) in * . clearbody o.
    unfold irk_guts in Hr |- * . cbv zeta in Hr |- * .
    do 7 (let w' := fresh "w" in let a := fresh "a" in let Ha := fresh "Ha" in
          apply bind_ok in Hr; destruct Hr as (w' & a & Ha & Hr); rewrite (bind_run _ _ _ _ _ Ha)).
    apply bind_ok in Hr. destruct Hr as (w9 & r & Hw & Hr). rewrite (bind_run _ _ _ _ _ (while_more _ _ f f' _ _ _ _ Hf Hw)). exact Hr.
  Qed.

  Definition boot_step (fuel : nat) (dt : T) (i : nat) (s : T * list T * list (list T)) : M W (T * list T * list (list T)) :=
    let '(t, ts, ys) := s in
    yi <- lift (match nth_error ys (i - 1) with Some v => Ok v | None => Err EUB end) ;;
    sol <- irk_odeint fuel F t (t +. dt) yi bootstrap_options bootstrap_output LOBATTO_IIIC_85 (slit 1 (-6)) ;;
    yn <- lift (match nth_error (io_y_vals sol) (length (io_t_vals sol) - 1) with Some v => Ok v | None => Err EUB end) ;;
    let t := t +. dt in
    ret (t, ts ++ [t], ys ++ [yn]).
  Lemma boot_more f f' dt i s (w w' : W) r : (f <= f')%nat -> boot_step f dt i s w = (w', Ok r) -> boot_step f' dt i s w = (w', Ok r).
  Proof.
    intros Hf. destruct s as [[t ts] ys]. unfold boot_step. intros Hr.
    apply bind_ok in Hr. destruct Hr as (w1 & yi & K1 & Hr). rewrite (bind_run _ _ _ _ _ K1).
    apply bind_ok in Hr. destruct Hr as (w2 & sol & K2 & Hr). rewrite (bind_run _ _ _ _ _ (irk_more _ _ _ _ _ _ _ _ _ _ _ _ Hf K2)). exact Hr.
  Qed.
  Lemma boot_total h y0 : starter_returns F h y0 -> forall m t (w : W), exists fuel w',
    foldM (boot_step fuel h) (seq 1 m) (t, [t], [y0]) w = (w', Ok (gtime t h m, grid (S m) t h, repeat y0 (S m))).
  Proof.
    intros HS. induction m as [|m IH]; intros t w; [exists 0%nat, w; reflexivity|].
    destruct (IH t w) as (f1 & w1 & E1). destruct (HS (gtime t h m) w1) as (f2 & w2 & sol & E2).
    exists (Nat.max f1 f2), w2. rewrite seq_S, foldM_app.
    assert (E1' : foldM (boot_step (Nat.max f1 f2) h) (seq 1 m) (t, [t], [y0]) w = (w1, Ok (gtime t h m, grid (S m) t h, repeat y0 (S m)))).
    { clear - E1. revert E1. generalize (gtime t h m, grid (S m) t h, repeat y0 (S m)) as r. generalize (t, [t], [y0]) as s. generalize (seq 1 m) as l.
      intros l. revert w. induction l as [|i l IHl]; intros w s r Hr; [exact Hr|]. cbn [foldM] in Hr |- * .
      apply bind_ok in Hr. destruct Hr as (w2 & s2 & K1 & Hr). rewrite (bind_run _ _ _ _ _ (boot_more f1 (Nat.max f1 f2) _ _ _ _ _ _ (Nat.le_max_l _ _) K1)).
      apply IHl, Hr. }
    assert (E3 : boot_step (Nat.max f1 f2) h (1 + m) (gtime t h m, grid (S m) t h, repeat y0 (S m)) w1 = (w2, Ok (gtime t h (S m), grid (S (S m)) t h, repeat y0 (S (S m))))).
    { unfold boot_step. replace (1 + m - 1)%nat with m by lia. rewrite nth_error_repeat' by lia.
      rewrite (bind_run (lift (Ok y0)) _ w1 w1 y0 eq_refl). rewrite (bind_run _ _ _ _ _ (irk_more f2 (Nat.max f1 f2) _ _ _ _ _ _ _ _ _ _ (Nat.le_max_r _ _) E2)).
      destruct (irk_aligned _ _ _ _ _ _ _ _ _ _ _ _ E2) as (atts & _ & _ & Et & Ey & _).
      change (store_in_vectors bootstrap_output) with false in Et, Ey. cbn [map] in Et, Ey. rewrite Et, Ey. cbn [length Nat.sub nth_error].
      unfold bind, lift, ret. rewrite (grid_snoc (S m)), <- (repeat_snoc y0 (S m)). reflexivity. }
    rewrite (bind_run _ _ _ _ _ E1'). cbn [foldM]. rewrite (bind_run _ _ _ _ _ E3). reflexivity.
  Qed.

  Lemma bootstrap_total h y0 order : starter_returns F h y0 -> (1 <= order)%Z -> forall t (w : W), exists fuel w',
    forall fuel', (fuel <= fuel')%nat -> bootstrap_history fuel' F order y0 t h w = (w', Ok (grid (Z.to_nat order) t h, repeat y0 (Z.to_nat order))).
  Proof.
    intros HS Ho t w. destruct (boot_total h y0 HS (Z.to_nat order - 1) t w) as (fuel & w' & E). exists fuel, w'. intros fuel' Hf.
    unfold bootstrap_history. 
    assert (E' : foldM (boot_step fuel' h) (seq 1 (Z.to_nat order - 1)) (t, [t], [y0]) w = (w', Ok (gtime t h (Z.to_nat order - 1), grid (S (Z.to_nat order - 1)) t h, repeat y0 (S (Z.to_nat order - 1))))).
    { revert E. generalize (gtime t h (Z.to_nat order - 1), grid (S (Z.to_nat order - 1)) t h, repeat y0 (S (Z.to_nat order - 1))) as r. generalize (t, [t], [y0]) as s. generalize (seq 1 (Z.to_nat order - 1)) as l.
      intros l. revert w. induction l as [|i l IHl]; intros w s r Hr; [exact Hr|]. cbn [foldM] in Hr |- * .
      apply bind_ok in Hr. destruct Hr as (w2 & s2 & K3 & Hr). rewrite (bind_run _ _ _ _ _ (boot_more fuel fuel' _ _ _ _ _ _ Hf K3)). apply IHl, Hr. }
    replace (S (Z.to_nat order - 1)) with (Z.to_nat order) in E' by lia. rewrite (bind_run _ _ _ _ _ E'). reflexivity.
  Qed.

  (** steps of Adams-Bashforth *)
  Section Ab.
    Variables (p : Z) (b : cbuf (list T)) (hs : list (list T)).
    Hypothesis Hb : inv [] p b hs.
    Hypothesis Hn : Forall (fun y => length y = n) hs.
    Lemma term_total t c j (w : W) : (j < length hs)%nat -> (Z.of_nat j < p)%Z -> exists w' v, ab_term F t b c (Z.of_nat j) w = (w', Ok v) /\ length v = n.
    Proof.
      intros Hj Hp. assert (Hs : (0 <= Z.of_nat j < size_ b)%Z) by (destruct Hb as (_ & _ & Hs & _); lia).
      destruct (inv_get [] p b hs ndebug (Z.of_nat j) Hb Hs) as (x & Hx & Hg). unfold ab_term. unfold bind at 1, lift. rewrite Hg.
      assert (Lx : length x = n) by (rewrite Forall_forall in Hn; apply Hn, (nth_error_In _ _ Hx)).
      destruct (HF t x (w_st w) Lx) as (s' & v & Hv & Lv). unfold bind, in_world, ret. rewrite Hv. do 2 eexists. split; [reflexivity|]. rewrite vscale_length. exact Lv.
    Qed.
    Lemma tail_total t cs : forall a acc (w : W), (a + length cs <= length hs)%nat -> (Z.of_nat (a + length cs) <= p)%Z -> length acc = n ->
      exists w' v, foldM (fun q acc => bind (ab_term F t b (snd q) (Z.of_nat (fst q))) (fun v => lift (vadd acc v))) (combine (seq a (length cs)) cs) acc w = (w', Ok v) /\ length v = n.
    Proof.
      induction cs as [|c cs IH]; intros a acc w K2 K3 La; [do 2 eexists; split; [reflexivity|exact La]|]. cbn [length] in K2, K3.
      cbn [length seq combine foldM]. destruct (term_total t c a w ltac:(lia) ltac:(lia)) as (w1 & v & Hv & Lv).
      assert (E : bind (ab_term F t b (snd (a, c)) (Z.of_nat (fst (a, c)))) (fun v => lift (vadd acc v)) w = (w1, Ok (zipwith sadd acc v))).
      { cbn [fst snd]. rewrite (bind_run _ _ _ _ _ Hv). unfold lift. rewrite vadd_ok by congruence. reflexivity. }
      rewrite (bind_run _ _ _ _ _ E). apply IH; [lia|lia|]. rewrite zipwith_length by congruence. exact La.
    Qed.
    Lemma step_total order Y t h (w : W) : (1 <= order <= 5)%Z -> p = order -> (Z.to_nat order <= length hs)%nat -> length Y = n ->
      exists w' y, adams_bashforth_step F order Y t h b w = (w', Ok y) /\ length y = n.
    Proof.
      intros Ho Ep Hl LY. unfold adams_bashforth_step. destruct (Z.eqb_spec order 1) as [->|Hne].
      - assert (Hs : (0 <= 0 < size_ b)%Z) by (destruct Hb as (_ & _ & Hs & _); lia).
        destruct (inv_get [] p b hs ndebug 0 Hb Hs) as (x & Hx & Hg). unfold bind at 1, lift. rewrite Hg.
        assert (Lx : length x = n) by (rewrite Forall_forall in Hn; apply Hn, (nth_error_In _ _ Hx)).
        destruct (HF t x (w_st w) Lx) as (s' & v & Hv & Lv). unfold bind, in_world. rewrite Hv.
        rewrite vadd_ok by (rewrite vscale_length; congruence). do 2 eexists. split; [reflexivity|]. rewrite zipwith_length by (rewrite vscale_length; congruence). exact LY.
      - replace ((2 <=? order)%Z && (order <=? 5)%Z) with true by (symmetry; apply andb_true_iff; lia).
        assert (Lc : exists c cs, nth (Z.to_nat order - 1) ab_coeffs [] = c :: cs :> list T /\ S (length cs) = Z.to_nat order).
        { assert (Hc : (order = 2 \/ order = 3 \/ order = 4 \/ order = 5)%Z) by lia.
          destruct Hc as [->|[->|[->| ->]]]; (do 2 eexists; split; [reflexivity|reflexivity]). }
        destruct Lc as (c & cs & Ec & Lc). rewrite Ec. unfold ab_sum.
        destruct (term_total t c 0 w ltac:(lia) ltac:(lia)) as (w1 & v & Hv & Lv). change (Z.of_nat 0) with 0%Z in Hv.
        destruct (tail_total t cs 1 v w1 ltac:(lia) ltac:(lia) Lv) as (w2 & u & Hu & Lu).
        assert (E : bind (ab_term F t b c 0) (fun v0 => foldM (fun q acc => bind (ab_term F t b (snd q) (Z.of_nat (fst q))) (fun v => lift (vadd acc v))) (combine (seq 1 (length cs)) cs) v0) w = (w2, Ok u)).
        { rewrite (bind_run _ _ _ _ _ Hv). exact Hu. }
        rewrite (bind_run _ _ _ _ _ E). unfold lift. rewrite vadd_ok by (rewrite vscale_length; congruence). do 2 eexists. split; [reflexivity|]. rewrite zipwith_length by (rewrite vscale_length; congruence). exact LY.
    Qed.
  End Ab.

  (** the main loop of Adams-Bashforth: [N] bounds the number of values *)
  Definition lens (ys : list (list T)) : Prop := Forall (fun y => length y = n) ys.
  Section Loops.
    Variables (t0 t1 h : T) (N : nat).
    Hypothesis HN : forall i, (gtime t0 h i <?. t1) = true -> (i < N)%nat.

    Record loop_inv (k : nat) (p : Z) (s : ms_state T) : Prop := {
      li_count : (k <= length (ms_ys s))%nat;
      li_t : ms_t s = gtime t0 h (length (ms_ys s) - 1);
      li_y : ms_y s = last (ms_ys s) [];
      li_hist : inv [] p (ms_hist s) (rev (ms_ys s));
      li_lens : lens (ms_ys s) }.

    Lemma last_len ys : lens ys -> (1 <= length ys)%nat -> length (last ys []) = n.
    Proof.
      intros Hl Hne. destruct ys as [|y ys] using rev_ind; [simpl in Hne; lia|]. rewrite last_last. unfold lens in Hl. rewrite Forall_app in Hl. destruct Hl as [_ Hl]. inversion Hl; assumption.
    Qed.
    Lemma loop_step k p s y b ts st : loop_inv k p s -> (1 <= k)%nat -> cb_push (ms_hist s) y = Ok b -> length y = n ->
      loop_inv k p (MsState (ms_t s +. h) y b ts (ms_ys s ++ [y]) st).
    Proof.
      intros [I1 I2 I3 I4 I5] Hk Hp Ly. destruct (push_inv _ _ _ _ y I4) as (b' & Hp' & Hi). rewrite Hp in Hp'. injection Hp' as <-.
      constructor; cbn [ms_ys ms_t ms_y ms_hist]; rewrite ?app_length; cbn [length].
      - lia.
      - rewrite I2. replace (length (ms_ys s) + 1 - 1)%nat with (S (length (ms_ys s) - 1)) by lia. reflexivity.
      - rewrite last_last. reflexivity.
      - rewrite rev_app_distr. exact Hi.
      - apply Forall_app. split; [exact I5|]. constructor; [exact Ly|constructor].
    Qed.
    Lemma rev_lens ys : lens ys -> Forall (fun y => length y = n) (rev ys).
    Proof. intros Hl. apply Forall_rev, Hl. Qed.

    Lemma ab_loop order s (w : W) : (1 <= order <= 5)%Z -> loop_inv (Z.to_nat order) order s ->
      exists fuel w' r, while (fun s => ms_t s <?. t1) (ab_body F order h) fuel s w = (w', Ok (inl r)).
    Proof.
      intros Ho HI.
      destruct (while_total (fun s => ms_t s <?. t1) (ab_body F order h) (fun _ s => loop_inv (Z.to_nat order) order s) (fun s => N - (length (ms_ys s) - 1))%nat) with (s := s) (w := w) as (w' & x & Hx).
      - clear - HF Ho HN. intros w s HI Hc. pose proof HI as [I1 I2 I3 I4 I5].
        destruct (step_total order (ms_hist s) (rev (ms_ys s)) I4 (rev_lens _ I5) order (ms_y s) (ms_t s) h w Ho eq_refl) as (w1 & y & Hy & Ly).
        { rewrite rev_length. exact I1. }
        { rewrite I3. apply last_len; [exact I5|lia]. }
        destruct (push_inv _ _ _ _ y I4) as (b & Hp & _). unfold ab_body. rewrite (bind_run _ _ _ _ _ Hy). unfold bind, lift, ret. rewrite Hp.
        do 2 eexists. split; [reflexivity|]. split; [apply loop_step with (1 := HI); [lia|exact Hp|exact Ly]|].
        cbn [ms_ys]. rewrite app_length. cbn [length]. rewrite I2 in Hc. apply HN in Hc. lia.
      - exact HI.
      - destruct x as [r|out]; [eauto|]. exfalso. revert Hx. generalize (Datatypes.S (N - (length (ms_ys s) - 1))) as f. clear.
        intros f. revert s w. induction f as [|f IH]; intros s w Hx; cbn [while] in Hx; destruct (ms_t s <?. t1); try discriminate.
        apply bind_ok in Hx. destruct Hx as (w1 & x & Hb & Hx). unfold ab_body in Hb. apply bind_ok in Hb. destruct Hb as (w2 & y & _ & Hb).
        apply bind_ok in Hb. destruct Hb as (w3 & b & _ & Hb). apply ret_ok in Hb. destruct Hb as [_ <-]. exact (IH _ _ Hx).
    Qed.

    (** the main loop of BDF *)
    Hypothesis HJ : forall t y s, length y = n -> exists s' J, f_jac F t y s = (s', Ok J) /\ nrows J = n /\ ncols J = n.

    Lemma interp_tail_total p b hs cs : forall a acc, inv [] p b hs -> Forall (fun y => length y = n) hs -> (a + length cs <= length hs)%nat -> (Z.of_nat (a + length cs) <= p)%Z -> length acc = n ->
      exists v, foldR (fun q acc => rbind (cb_get ndebug b (Z.of_nat (fst q))) (fun h => vadd acc (vscale (snd q) h))) (combine (seq a (length cs)) cs) acc = Ok v /\ length v = n.
    Proof.
      induction cs as [|c cs IH]; intros a acc Hi Hl K1 K2 La; [eexists; split; [reflexivity|exact La]|]. cbn [length] in K1, K2. cbn [length seq combine foldR fst snd].
      assert (Hs : (0 <= Z.of_nat a < size_ b)%Z) by (destruct Hi as (_ & _ & Hs & _); lia).
      destruct (inv_get [] p b hs ndebug (Z.of_nat a) Hi Hs) as (x & Hx & Hg). rewrite Hg. cbn [rbind].
      assert (Lx : length x = n) by (rewrite Forall_forall in Hl; apply Hl, (nth_error_In _ _ Hx)).
      rewrite vadd_ok by (rewrite vscale_length; congruence). cbn [rbind]. apply IH; auto; [lia|lia|]. rewrite zipwith_length by (rewrite vscale_length; congruence). exact La.
    Qed.

    (** what Newton's method returns is its start or a point at which the system was evaluated *)
    Lemma newton_point (G : nfunctor T St) x opts stats quiet s s' x' st pr : newton_iterate G x opts stats quiet s = (s', Ok (x', st, pr)) ->
      x' = x \/ exists u u' r, n_fun G x' u = (u', Ok r).
    Proof.
      intros Hr. apply (newton_logged G _ _ _ _ _ _ _ []) in Hr. destruct Hr as [l' Hr].
      rewrite dispatch in Hr. apply impl_run in Hr. destruct Hr as (v0 & V & Hx & _ & (Ha1 & _) & _ & _ & _ & _ & _ & _ & Hout). cbn [fst snd] in Hout.
      destruct Hout as [(K1 & _)|(_ & _ & _ & K4 & _)]; [left; exact K1|]. rewrite K4. destruct (st_conv st =? Newton.SUCCESS)%Z; [right|left; reflexivity].
      assert (Hin : In (last V v0) (v0 :: V)).
      { destruct V as [|v V] using rev_ind; [left; reflexivity|]. rewrite last_last. right. apply in_or_app. right. left. reflexivity. }
      rewrite Forall_forall in Ha1. destruct (Ha1 _ Hin) as (u & u' & E). eauto.
    Qed.

    Lemma eye_minus_total (c : T) (J : mat T) : nrows J = n -> ncols J = n -> exists M, msub (eye n) (mscale c J) = Ok M /\ ncols M = n.
    Proof.
      intros Jr Jc. assert (Er : nrows (mscale c J) = n) by exact Jr. assert (Ec : ncols (mscale c J) = n) by (unfold mscale, ncols; cbn [mcols]; rewrite map_length; exact Jc).
      unfold msub, msame. unfold eye. rewrite mtab_nrows, mtab_ncols, Er, Ec, Nat.eqb_refl. cbn [andb]. eexists. split; [reflexivity|].
      unfold mzip, ncols. cbn [mcols]. rewrite map_length, combine_length. fold (ncols (mscale c J)).
      change (length (mcols ?M)) with (ncols M). rewrite mtab_ncols, Ec. apply Nat.min_id.
    Qed.

    Lemma bdf_loop order s (w : W) : (1 <= order <= 6)%Z -> loop_inv (S (Z.to_nat order)) (order + 1) s ->
      exists fuel w' r, while (fun s => ms_t s <?. t1) (bdf_body F order n h) fuel s w = (w', Ok r).
    Proof.
      intros Ho HI.
      destruct (while_total (fun s => ms_t s <?. t1) (bdf_body F order n h) (fun _ s => loop_inv (S (Z.to_nat order)) (order + 1) s) (fun s => N - (length (ms_ys s) - 1))%nat) with (s := s) (w := w) as (w' & x & Hx).
      - clear - HF HJ Ho HN. intros w s HI Hc. pose proof HI as [I1 I2 I3 I4 I5].
        assert (Ly : length (ms_y s) = n) by (rewrite I3; apply last_len; [exact I5|lia]).
        assert (Lc : length (nth (Z.to_nat order - 1) bdf_coeffs [] : list T) = Z.to_nat order).
        { assert (Hc' : (order = 1 \/ order = 2 \/ order = 3 \/ order = 4 \/ order = 5 \/ order = 6)%Z) by lia.
          destruct Hc' as [->|[->|[->|[->|[->| ->]]]]]; reflexivity. }
        destruct (interp_tail_total (order + 1) (ms_hist s) (rev (ms_ys s)) (nth (Z.to_nat order - 1) bdf_coeffs []) 0 (vzeros n) I4 (rev_lens _ I5)) as (part & Hp & Lp).
        { rewrite rev_length, Lc. lia. }
        { rewrite Lc. lia. }
        { apply repeat_length. }
        assert (Hp' : interpolation_part n (nth (Z.to_nat order - 1) bdf_coeffs []) (ms_hist s) = Ok part) by exact Hp.
        unfold bdf_body. rewrite Hp'. rewrite (bind_run (lift (Ok part)) _ w w part eq_refl). rewrite Ly.
        set (G := newton_multistep_helper F n (h *. nth (Z.to_nat order - 1) bdf_rhs_weight (sZ 0)) (ms_t s +. h) part). cbv zeta. fold G.
        destruct (newton_returns G n) with (x := ms_y s) (opts := bdf_newton_options (T := T)) (stats := ms_newton s) (quiet := true) (s := w_st w) as (u' & [[yn st] pr] & Hn).
        { intros y u Hy. unfold G, newton_multistep_helper. cbn [n_fun]. destruct (HF (ms_t s +. h) y u Hy) as (u1 & v & Hv & Lv). rewrite (bind_run _ _ _ _ _ Hv).
          unfold bind, lift. rewrite vadd_ok by congruence. assert (Lz : length (zipwith sadd y part) = n) by (rewrite zipwith_length; congruence).
          rewrite vsub_ok by (rewrite Lz, vscale_length; congruence). do 2 eexists. split; [reflexivity|]. rewrite zipwith_length by (rewrite Lz, vscale_length; congruence). exact Lz. }
        { intros y u Hy. unfold G, newton_multistep_helper. cbn [n_jac]. destruct (HJ (ms_t s +. h) y u Hy) as (u1 & J & HJ1 & Jr & Jc). rewrite (bind_run _ _ _ _ _ HJ1).
          destruct (eye_minus_total (h *. nth (Z.to_nat order - 1) bdf_rhs_weight (sZ 0)) J Jr Jc) as (M & HM & LM). unfold lift. rewrite HM. eauto. }
        { exact Ly. }
        assert (Ln : length yn = n).
        { destruct (newton_point _ _ _ _ _ _ _ _ _ _ Hn) as [->|(a & a' & r & Hr)]; [exact Ly|]. unfold G, newton_multistep_helper in Hr. cbn [n_fun] in Hr.
          apply bind_ok in Hr. destruct Hr as (a1 & v & _ & Hr). apply bind_ok in Hr. destruct Hr as (a2 & z & Hz & _). apply lift_ok in Hz. destruct Hz as [_ Hz]. unfold vadd in Hz.
          destruct (Nat.eqb_spec (length yn) (length part)) as [E|E]; [congruence|discriminate]. }
        unfold bind at 1, on_copy. rewrite Hn. destruct (negb (st_conv st =? Newton.SUCCESS)%Z); [do 2 eexists; split; [reflexivity|exact I]|].
        destruct (push_inv _ _ _ _ yn I4) as (b & Hq & _). unfold bind, lift, ret. rewrite Hq.
        do 2 eexists. split; [reflexivity|]. split; [apply loop_step with (1 := HI); [lia|exact Hq|exact Ln]|].
        cbn [ms_ys]. rewrite app_length. cbn [length]. rewrite I2 in Hc. apply HN in Hc. lia.
      - exact HI.
      - eauto.
    Qed.
  End Loops.

  Lemma loaded t0 h y0 k p : (1 <= k)%nat -> (1 <= p)%Z -> length y0 = n -> exists b0 b, cb_make [] p = Ok b0 /\
    load_history (grid k t0 h, repeat y0 k) b0 = Ok (gtime t0 h (k - 1), y0, b) /\
    loop_inv t0 h k p (MsState (gtime t0 h (k - 1)) y0 b (grid k t0 h) (repeat y0 k) status_default).
  Proof.
    intros Hk Hp Ly. destruct (inv_make (A := list T) [] p Hp) as (b0 & Hm & Hi0). destruct (pushes_inv [] p (repeat y0 k) b0 [] Hi0) as (b & Hb & Hi). rewrite app_nil_r in Hi.
    exists b0, b. split; [exact Hm|]. split.
    - unfold load_history. cbn [fst snd]. rewrite Hb. cbn [rbind]. rewrite grid_length, nth_error_repeat' by lia.
      rewrite (nth_error_nth' (grid k t0 h) t0) by (rewrite grid_length; lia). rewrite grid_nth by lia. reflexivity.
    - constructor; cbn [ms_ys ms_t ms_y ms_hist]; rewrite ?repeat_length; auto.
      + replace k with (S (k - 1)) by lia. rewrite <- repeat_snoc, last_last. reflexivity.
      + unfold lens. apply Forall_forall. intros y Hy. apply repeat_spec in Hy. congruence.
  Qed.
End Total.

Local Open Scope R_scope.
Section TotalR.
  Context {LA : LinAlg R} {HE : Env R} {St : Type}.
  Variables (F : functor R St) (t0 t1 dt : R) (y0 : list R).
  Hypothesis HF : returns_dim F (length y0).
  Hypothesis Ht : t0 < t1.
  Hypothesis Hd : 0 < dt.
  Let h := Rmin dt (t1 - t0).
  Lemma h_pos : 0 < h. Proof. apply Rmin_glb_lt; lra. Qed.
  Lemma grid_bound : exists N, forall i, (gtime t0 h i <?. t1)%sc = true -> (i < N)%nat.
  Proof.
    destruct (Rarch (t1 - t0) h h_pos) as [N HN]. exists N. intros i Hi. rewrite gtime_R in Hi. apply Rltb_t in Hi.
    destruct (Nat.lt_ge_cases i N) as [Hlt|Hge]; [exact Hlt|]. exfalso. apply le_INR in Hge. pose proof h_pos.
    assert (INR N * h <= INR i * h) by (apply Rmult_le_compat_r; lra). lra.
  Qed.
  Lemma h_assert : (fitted_step t0 t1 dt >?. sZ 0)%sc = true.
  Proof. rewrite fitted_R. fold h. cbn [sltb RScalar]. unfold Rltb. destruct (Rlt_dec (sZ 0) h) as [_|Hn]; [reflexivity|]. exfalso. apply Hn. exact h_pos. Qed.

  Lemma ab_halts order (w : world R St) : (1 <= order <= 5)%Z -> (order = 1%Z \/ starter_returns F h y0) ->
    exists fuel w' sol, adams_bashforth fuel F t0 t1 y0 order dt w = (w', Ok sol).
  Proof.
    intros Ho Hst. destruct grid_bound as [N HN].
    assert (Hb : exists f1 w1, forall f, (f1 <= f)%nat -> bootstrap_history f F order y0 t0 h w = (w1, Ok (grid (Z.to_nat order) t0 h, repeat y0 (Z.to_nat order)))).
    { destruct Hst as [->|Hst]; [exists 0%nat, w; intros f _; reflexivity|]. exact (bootstrap_total F h y0 order Hst ltac:(lia) t0 w). }
    destruct Hb as (f1 & w1 & Hb).
    destruct (loaded (length y0) t0 h y0 (Z.to_nat order) order ltac:(lia) ltac:(lia) eq_refl) as (b0 & b & Hm & Hl & HI).
    destruct (ab_loop F (length y0) HF t0 t1 h N HN order _ w1 Ho HI) as (f2 & w2 & r & Hw).
    exists (Nat.max f1 f2), w2, (BasicOutput SUCCESS (ms_ts r) (ms_ys r)). unfold adams_bashforth. cbv zeta. fold (fitted_step t0 t1 dt).
    rewrite (bind_run (assert_ ndebug (fitted_step t0 t1 dt >?. sZ 0)%sc) _ w w tt) by (unfold assert_; rewrite h_assert; destruct ndebug; reflexivity).
    rewrite fitted_R. fold h. rewrite (bind_run (lift (cb_make [] order)) _ w w b0) by (unfold lift; rewrite Hm; reflexivity).
    rewrite (bind_run _ _ _ _ _ (Hb (Nat.max f1 f2) (Nat.le_max_l _ _))).
    rewrite (bind_run (lift (load_history (grid (Z.to_nat order) t0 h, repeat y0 (Z.to_nat order)) b0)) _ w1 w1 _) by (unfold lift; rewrite Hl; reflexivity).
    cbn [fst snd]. rewrite (bind_run _ _ _ _ _ (while_more _ _ f2 (Nat.max f1 f2) _ _ _ _ (Nat.le_max_r _ _) Hw)). reflexivity.
  Qed.

  Lemma bdf_halts order (w : world R St) : (1 <= order <= 6)%Z -> starter_returns F h y0 ->
    (forall t y s, length y = length y0 -> exists s' J, f_jac F t y s = (s', Ok J) /\ nrows J = length y0 /\ ncols J = length y0) ->
    exists fuel w' sol, bdf fuel F t0 t1 y0 order dt w = (w', Ok sol).
  Proof.
    intros Ho Hst HJ. destruct grid_bound as [N HN].
    destruct (bootstrap_total F h y0 (order + 1) Hst ltac:(lia) t0 w) as (f1 & w1 & Hb). replace (Z.to_nat (order + 1)) with (S (Z.to_nat order)) in Hb by lia.
    destruct (loaded (length y0) t0 h y0 (S (Z.to_nat order)) (order + 1) ltac:(lia) ltac:(lia) eq_refl) as (b0 & b & Hm & Hl & HI).
    destruct (bdf_loop F (length y0) HF t0 t1 h N HN HJ order _ w1 Ho HI) as (f2 & w2 & r & Hw).
    exists (Nat.max f1 f2), w2, (match r with inl r => BasicOutput SUCCESS (ms_ts r) (ms_ys r) | inr out => out end). unfold bdf.
    rewrite Z.gtb_ltb. destruct (Z.ltb_spec 6 order); [lia|]. destruct (Z.leb_spec order 0); [lia|]. cbv zeta. fold (fitted_step t0 t1 dt).
    rewrite (bind_run (assert_ ndebug (fitted_step t0 t1 dt >?. sZ 0)%sc) _ w w tt) by (unfold assert_; rewrite h_assert; destruct ndebug; reflexivity).
    rewrite fitted_R. fold h. rewrite (bind_run (lift (cb_make [] (order + 1))) _ w w b0) by (unfold lift; rewrite Hm; reflexivity).
    rewrite (bind_run _ _ _ _ _ (Hb (Nat.max f1 f2) (Nat.le_max_l _ _))).
    rewrite (bind_run (lift (load_history (grid (S (Z.to_nat order)) t0 h, repeat y0 (S (Z.to_nat order))) b0)) _ w1 w1 _) by (unfold lift; rewrite Hl; reflexivity).
    cbn [fst snd]. rewrite (bind_run _ _ _ _ _ (while_more _ _ f2 (Nat.max f1 f2) _ _ _ _ (Nat.le_max_r _ _) Hw)). destruct r; reflexivity.
  Qed.
End TotalR.
