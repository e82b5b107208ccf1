(** Termination of the explicit integrator in exact arithmetic. *)
From Coq Require Import Reals Lra.
From Verif Require Import Model.Base Model.Scalar Model.LinAlg Model.Enums Model.Options Model.Coeffs Model.ErkCoeffs Model.Erk.
From Verif Require Import Spec.Sums Spec.Trees Spec.RkSpec Spec.Observe Spec.ErkSpec Spec.Methods.
From Verif Require Import Proofs.SumsProofs Proofs.LoopProofs Proofs.OrderProofs Proofs.TablesGeneric Proofs.CoeffsProofs Proofs.ErkCoeffsProofs Proofs.ErkProofs Proofs.ErkRun Proofs.ErkReal Proofs.ErkGeneric Proofs.ErkTimes.
Local Open Scope R_scope.

Lemma Rarch (a d : R) : 0 < d -> exists n : nat, a <= INR n * d.
Proof.
  intros Hd. exists (Z.to_nat (up (a / d))). destruct (archimed (a / d)) as [H _].
  assert (Ha : a = a / d * d) by (field; lra). set (q := a / d) in * .
  assert (Hq : q <= INR (Z.to_nat (up q))).
  { destruct (Z_lt_le_dec (up q) 0) as [Hn|Hp].
    - apply (IZR_lt _ 0) in Hn. pose proof (pos_INR (Z.to_nat (up q))). lra.
    - rewrite INR_IZR_INZ, Z2Nat.id by exact Hp. lra. }
  rewrite Ha. apply Rmult_le_compat_r; lra.
Qed.

(** more fuel does not change the result *)
Lemma bind_mono {S A B} (p : M S A) (k k' : A -> M S B) w w' r :
  (forall a w1, k a w1 = (w', Ok r) -> k' a w1 = (w', Ok r)) -> bind p k w = (w', Ok r) -> bind p k' w = (w', Ok r).
Proof. intros H. unfold bind. destruct (p w) as [w1 [a|e]]; [apply H|discriminate]. Qed.
Lemma bind_mono_l {S A B} (p p' : M S A) (k : A -> M S B) w w' r :
  (forall w1 a, p w = (w1, Ok a) -> p' w = (w1, Ok a)) -> bind p k w = (w', Ok r) -> bind p' k w = (w', Ok r).
Proof. intros H. unfold bind. destruct (p w) as [w1 [a|e]]; [rewrite (H w1 a eq_refl); auto|discriminate]. Qed.
Lemma erk_odeint_more {T St} `{Scalar T} `{LinAlg T} `{Env T} (F : functor T St) f f' t0 t1 y0 opts oo m dt w w' sol : (f <= f')%nat ->
  erk_odeint f F t0 t1 y0 opts oo m dt w = (w', Ok sol) -> erk_odeint f' F t0 t1 y0 opts oo m dt w = (w', Ok sol).
Proof.
  intros Hf. unfold erk_odeint. apply bind_mono. intros sc w1. apply bind_mono. intros [] w2. unfold erk_guts.
  apply bind_mono. intros [] w3. apply bind_mono. intros mo w4. apply bind_mono. intros [Ks sol0] w5. apply bind_mono_l. intros w6 r. apply while_more, Hf.
Qed.

  Lemma err_tot_total (opts : erk_options R) y yn est : length yn = length y -> length est = length y -> exists tot, erk_err_tot opts y yn est = Ok tot /\ 0 <= tot.
  Proof.
    intros L1 L2. unfold erk_err_tot.
    destruct (foldR_seq_total (fun i tot =>
               rbind (vget est i) (fun erri => rbind (vget y i) (fun yi => rbind (vget yn i) (fun yni =>
               let sci := (eo_abs_tol opts +. eo_rel_tol opts *. smax (sabs yi) (sabs yni))%sc in
               let add := (erri /. sci)%sc in Ok (tot +. add *. add)%sc)))) (fun _ tot => 0 <= tot) 0 (length y) (slit 0 0)) as (tot & Ht & Hp); [| |eauto].
    - intros i a Hi Ha. rewrite !(vget_ok _ _ 0) by lia. cbn [rbind]. eexists. split; [reflexivity|]. simpl.
      match goal with |- 0 <= a + ?x * ?x => pose proof (Rle_0_sqr x) as Hs; unfold Rsqr in Hs; lra end.
    - simpl. lra.
  Qed.

Section StageTotal.
  Context {T : Type} `{Scalar T} `{LinAlg T} {St : Type}.
  Variables (F : functor T St) (y0 : list T) (sc : solver_coeffs T).
  Let n := length y0.
  Let ns := length (sc_b sc).
  Hypothesis HF : returns_dim F n.
  Hypothesis Hns : (0 < ns)%nat.
  Hypothesis Hdims : dims_ok sc ns = true.
  Lemma stage_arg_total y dt Ks i : length y = n -> mdim Ks n ns -> (i < ns)%nat -> exists arg, erk_stage_arg sc y dt Ks i = Ok arg /\ length arg = n.
  Proof.
    intros Hy Hd Hi. unfold erk_stage_arg.
    destruct (dims_of sc ns Hdims) as (Db & Dc & Dr & DA & DF).
    destruct (foldR_seq_total (fun j tmp => rbind (mget (sc_A sc) i j) (fun a => rbind (mcol Ks j) (fun k => vadd tmp (vscale (dt *. a)%sc k))))
      (fun _ tmp => length tmp = n) 0 i y) as (arg & Ha & La); [|exact Hy|eauto].
    intros j tmp Hj Ht. destruct (mcol_ok Ks n ns j Hd ltac:(lia)) as [Hc Hl].
    assert (exists a, mget (sc_A sc) i j = Ok a) as [a ->].
    { unfold mget. destruct (nth_error (mcols (sc_A sc)) j) as [c|] eqn:Ec.
      2:{ apply nth_error_None in Ec. lia. }
      rewrite Forall_forall in DF. pose proof (DF c (nth_error_In _ _ Ec)) as Lc.
      destruct (nth_error c i) as [x|] eqn:Ex; [eauto|]. apply nth_error_None in Ex. lia. }
    cbn [rbind]. rewrite Hc. cbn [rbind]. rewrite vadd_ok by (rewrite vscale_length; congruence). eexists. split; [reflexivity|].
    rewrite zipwith_length by (rewrite vscale_length; congruence). exact Ht.
  Qed.
  Lemma stages_total t dt y Ks ev w : length y = n -> mdim Ks n ns ->
    exists w' Ks' ev', erk_stages_loop F sc t dt y Ks ev w = (w', Ok (Ks', ev')) /\ mdim Ks' n ns.
  Proof.
    intros Hy Hd. unfold erk_stages_loop. fold ns.
    destruct (dims_of sc ns Hdims) as (Db & Dc & Dr & DA & DF).
    destruct (foldM_seq_total (erk_stage F sc t dt y) (fun _ (_ : world T St) a => mdim (fst a) n ns) (stage_iter_start sc) (ns - stage_iter_start sc) (Ks, ev) w)
      as (w' & [Ks' ev'] & Hr & Hd'); [|exact Hd|exists w', Ks', ev'; auto].
    intros i v [Ki ei] Hi Hdi. cbn [fst] in Hdi. unfold stage_iter_start in Hi.
    assert (Hin : (i < ns)%nat) by (destruct (sc_FSAL sc); lia).
    destruct (stage_arg_total y dt Ki i Hy Hdi Hin) as (arg & Ha & La). unfold erk_stage.
    unfold bind, lift, in_world, ret. rewrite Ha. rewrite (vget_ok _ _ (sZ 0)) by lia.
    destruct (HF (t +. nth i (sc_c sc) (sZ 0) *. dt)%sc arg (w_st v) La) as (s' & k & Hk & Lk). rewrite Hk.
    destruct (mset_col_ok Ki n ns i k Hdi Hin Lk) as (B & HB). rewrite HB. destruct (mset_col_dim Ki n ns i k B Hdi HB) as (HdB & _). eexists _, _. split; [reflexivity|exact HdB].
  Qed.
End StageTotal.

Section Total.
  Context {E : Env R} {LA : LinAlg R} {St : Type}.
  Local Notation W := (world R St).
  Variables (F : functor R St) (t0 t1 : R) (y0 : list R) (opts : erk_options R) (sc : solver_coeffs R) (oo : output_options) (mo : Z).
  Variables (dt0 : R) (out0 : list (R * list R)).
  Let n := length y0.
  Let ns := length (sc_b sc).
  Hypothesis HF : returns_dim F n.
  Hypothesis Hns : (0 < ns)%nat.
  Hypothesis Hdims : dims_ok sc ns = true.
  Local Notation rinv := (run_inv t0 t1 y0 opts sc oo mo dt0 out0 false (fun _ : St => []) []).

  Hypothesis Hoo : write_to_file oo = true -> output_stream oo <> None.
  Hypothesis Hb2 : eo_adaptive opts = true -> length (sc_b2 sc) = ns.
  Lemma body_total w s : mdim (es_Ks s) n ns -> length (es_y s) = n -> length (es_err_est s) = n ->
    exists w' x, erk_body F t1 opts sc oo mo s w = (w', Ok x).
  Proof.
    intros Hd Hy He. unfold erk_body. fold (limit_hit opts s). destruct (limit_hit opts s); [unfold ret; eauto|].
    fold (clip t1 (es_t s) (es_dt s)). set (h := clip t1 (es_t s) (es_dt s)).
    destruct (stages_total F y0 sc HF Hns Hdims (es_t s) h (es_y s) (es_Ks s) (eo_fun_evals (es_sol s)) w Hy Hd) as (w1 & Ks & ev & Hl & HdK).
    rewrite (bind_run _ _ _ _ _ Hl). change (mdim Ks n ns) in HdK. destruct HdK as (K1 & K2 & K3).
    assert (Hm : mv Ks (sc_b sc) = Ok (vtab n (la_mv Ks (sc_b sc)))) by (rewrite mv_ok by exact K2; rewrite K1; reflexivity).
    unfold lift at 1. unfold bind at 1. rewrite Hm.
    unfold lift at 1. unfold bind at 1. rewrite vadd_ok by (rewrite vscale_length, vtab_length; exact Hy).
    set (yn := zipwith sadd (es_y s) (vscale h (vtab n (la_mv Ks (sc_b sc))))).
    assert (Lyn : length yn = n) by (unfold yn; rewrite zipwith_length; [exact Hy|rewrite vscale_length, vtab_length; exact Hy]).
    assert (exists err est rej nd, (if eo_adaptive opts then erk_control opts sc mo h Ks (es_y s) yn (vtab n (la_mv Ks (sc_b sc))) else ret (es_err s, es_err_est s, false, h)) w1
      = (w1, Ok (err, est, rej, nd))) as (err & est & rej & nd & Hc).
    { destruct (eo_adaptive opts) eqn:Ea; [|unfold ret; eauto 6]. unfold erk_control, bind, lift, ret.
      rewrite mv_ok by (rewrite Hb2 by reflexivity; exact K2). rewrite K1. rewrite vsub_ok by (rewrite !vtab_length; reflexivity).
      destruct (err_tot_total opts (es_y s) yn (vscale h (zipwith ssub (vtab n (la_mv Ks (sc_b2 sc))) (vtab n (la_mv Ks (sc_b sc)))))) as (tot & Ht & Hp).
      - congruence.
      - rewrite vscale_length, zipwith_length by (rewrite !vtab_length; reflexivity). rewrite vtab_length. congruence.
      - rewrite Ht. unfold assert_. replace (tot >=?. slit 0 0)%sc with true by (symmetry; apply Rleb_true; exact Hp).
        destruct ndebug; unfold ret; eauto 6. }
    rewrite (bind_run _ _ _ _ _ Hc).
    assert (exists w2, erk_write oo (es_t s) yn w1 = (w2, Ok tt)) as [w2 Hw].
    { unfold erk_write. destruct (write_to_file oo); [|unfold ret; eauto]. destruct (output_stream oo); [unfold write_line; eauto|].
      exfalso. apply Hoo; reflexivity. }
    rewrite (bind_run _ _ _ _ _ Hw). destruct rej; [unfold ret; eauto|].
    assert (exists Ks', fsal_hook sc Ks = Ok Ks') as [Ks' Hh].
    { unfold fsal_hook. destruct (sc_FSAL sc); [|eauto]. assert (HdK : mdim Ks n ns) by (repeat split; assumption).
      destruct (mcol_ok Ks n ns (ns - 1) HdK ltac:(lia)) as [Hcl Hlen]. fold ns. rewrite Hcl. cbn [rbind].
      destruct (mset_col_ok Ks n ns 0 _ HdK Hns Hlen) as (B & HB). eauto. }
    unfold bind, lift. rewrite Hh. unfold ret. eauto.
  Qed.

  Local Notation loop := (while (fun s => es_t s <?. t1)%sc (erk_body F t1 opts sc oo mo)).
  Definition halts (w : W) (s : erk_state R) : Prop := exists fuel w' x, loop fuel s w = (w', Ok x).
  Lemma halts_done w s : t1 <= es_t s -> halts w s.
  Proof. intros H. exists 0%nat, w, (inl s). cbn [while]. change (sltb (Scalar := RScalar)) with Rltb. replace (Rltb (es_t s) t1) with false by (symmetry; apply Rltb_false; exact H). reflexivity. Qed.
  Lemma halts_step w s w' x : es_t s < t1 -> erk_body F t1 opts sc oo mo s w = (w', Ok x) -> (forall s', x = inl s' -> halts w' s') -> halts w s.
  Proof.
    intros Hlt Hb Hx. destruct x as [s'|r].
    - destruct (Hx s' eq_refl) as (fu & w2 & x & Hl). exists (S fu), w2, x. cbn [while]. change (sltb (Scalar := RScalar)) with Rltb at 1.
      replace (Rltb (es_t s) t1) with true by (symmetry; apply Rltb_true; exact Hlt). rewrite (bind_run _ _ _ _ _ Hb). exact Hl.
    - exists 1%nat, w', (inr r). cbn [while]. change (sltb (Scalar := RScalar)) with Rltb at 1.
      replace (Rltb (es_t s) t1) with true by (symmetry; apply Rltb_true; exact Hlt). rewrite (bind_run _ _ _ _ _ Hb). reflexivity.
  Qed.

  (** fixed step size *)
  Lemma fixed_halts delta : 0 < delta -> eo_adaptive opts = false -> forall N w s atts, rinv atts w s ->
    delta <= es_dt s \/ t1 <= es_t s -> t1 - es_t s <= INR N * delta -> halts w s.
  Proof.
    intros Hdl Ea. induction N as [|N IH]; intros w s atts I Hdt HN.
    - simpl in HN. apply halts_done. lra.
    - destruct (Rlt_le_dec (es_t s) t1) as [Hlt|Hge]; [|apply halts_done; exact Hge].
      destruct (body_total w s (ri_Ks _ _ _ _ _ _ _ _ _ _ _ _ _ _ _ I) (ri_ylen _ _ _ _ _ _ _ _ _ _ _ _ _ _ _ I) (ri_est _ _ _ _ _ _ _ _ _ _ _ _ _ _ _ I)) as (w' & x & Hb).
      apply (halts_step w s w' x Hlt Hb). intros s' ->. apply erk_body_inl in Hb. destruct Hb as (w1 & Ks & ev & dy & yn & err & est & rej & nd & A).
      assert (Hlt' : (es_t s <?. t1)%sc = true) by (apply Rltb_true; exact Hlt).
      assert (Hlc : length (sc_c sc) = length (sc_b sc)) by (destruct (dims_of sc ns Hdims) as (Db & Dc & _); congruence).
      pose proof (run_step F t0 t1 y0 opts sc oo mo dt0 out0 false (fun _ : St => []) [] (fun _ _ _ => eq_refl) Hns Hlc _ _ _ _ _ _ _ _ _ _ _ _ _ _ I Hlt' A) as I'.
      pose proof (ap_ctl _ _ _ _ _ _ _ _ _ _ _ _ _ _ _ _ _ _ _ A) as Hc. rewrite Ea in Hc. destruct Hc as (_ & _ & -> & ->).
      pose proof (ap_next _ _ _ _ _ _ _ _ _ _ _ _ _ _ _ _ _ _ _ A) as Hn. cbv zeta in Hn. destruct Hn as (Ks' & _ & Hs'). rewrite clip_R in Hs'.
      destruct Hdt as [Hdt|Hdt]; [|lra].
      assert (Ht' : es_t s' = es_t s + Rmin (es_dt s) (t1 - es_t s)) by (rewrite Hs'; reflexivity).
      assert (Hd' : es_dt s' = Rmin (es_dt s) (t1 - es_t s)) by (rewrite Hs'; reflexivity).
      destruct (Rle_dec (es_dt s) (t1 - es_t s)) as [Hle|Hgt].
      + rewrite Rmin_left in Ht', Hd' by exact Hle. eapply IH; [exact I'|left; lra|]. rewrite Ht'. rewrite S_INR in HN. lra.
      + rewrite Rmin_right in Ht' by lra. apply halts_done. lra.
  Qed.
End Total.

Section FixedOdeint.
  Context {E : Env R} {LA : LinAlg R} {St : Type}.
  Variables (F : functor R St) (t0 t1 : R) (y0 : list R) (opts : erk_options R) (oo : output_options) (m : Z) (dt : R).
  Hypothesis HF : returns_dim F (length y0).
  Hypothesis Hm : In m explicit_methods.
  Hypothesis Hoo : write_to_file oo = true -> output_stream oo <> None.
  Hypothesis Ht : t0 < t1.
  Hypothesis Hdt : 0 < dt.

  Lemma erk_verify_R sc : erk_get_coefficients (T := R) m = Ok sc -> erk_verify_solver_coeffs sc = true.
  Proof.
    intros Hg. destruct (erk_get_ok (T := R) m) as (sc' & Hg' & Htab & _). rewrite Hg in Hg'. injection Hg' as <-.
    apply (erk_table_verify (T := R)) with (m := m); [|exact Hm|exact Htab].
    change (Reqb 0 0 = true). unfold Reqb. destruct (Req_EM_T 0 0); [reflexivity|contradiction].
  Qed.

  (** from the loop to odeint *)
  Lemma halts_odeint w : (forall sc a b, erk_get_coefficients m = Ok sc -> sc_order sc = Some a -> sc_order2 sc = Some b ->
      forall w0 Ks0, (if sc_FSAL sc then exists k, in_world (f_fun F t0 y0) w = (w0, Ok k) /\ mset_col (junk_stages sc y0) 0 k = Ok Ks0
                      else w0 = w /\ Ks0 = junk_stages sc y0) ->
      halts F t1 (eff_opts opts sc) sc oo (Z.min a b mod 2 ^ 64)%Z w0
        (ErkState t0 y0 (clip t1 t0 dt) 0 Ks0 (slit 0 0) (vzeros (length y0)) (init_sol t0 y0 (junk_stages sc y0) (stage_iter_start sc)))) ->
    exists fuel w' sol, erk_odeint fuel F t0 t1 y0 opts oo m dt w = (w', Ok sol).
  Proof.
    intros H. destruct (erk_get_ok (T := R) m) as (sc & Hg & _ & Hd). destruct (stages_dim m sc Hm Hd) as (L1 & L2 & L3).
    destruct (sc_orders m sc Hm Hg) as (p & p2 & _ & _ & Ef). pose proof (ef_order _ _ _ _ _ Ef) as Ha. pose proof (ef_order2 _ _ _ _ _ Ef) as Ho.
    assert (exists b, sc_order2 sc = Some b) as [b Hb] by (destruct p2; [destruct Ho as (_ & -> & _)|destruct Ho as (_ & ->)]; eauto).
    assert (Hpos : (clip t1 t0 dt >?. sZ 0)%sc = true) by (rewrite clip_R; apply Rltb_true; unfold sZ; simpl; apply Rmin_glb_lt; lra).
    assert (exists w0 Ks0 ev, (if sc_FSAL sc then bind (in_world (f_fun F t0 y0)) (fun k => bind (lift (mset_col (junk_stages sc y0) 0 k)) (fun Ks' => ret (Ks', with_counts (init_sol t0 y0 (junk_stages sc y0) 0) 0 0 1)))
       else ret (junk_stages sc y0, init_sol t0 y0 (junk_stages sc y0) 0)) w = (w0, Ok (Ks0, ev)) /\
       ev = init_sol t0 y0 (junk_stages sc y0) (stage_iter_start sc) /\
       (if sc_FSAL sc then exists k, in_world (f_fun F t0 y0) w = (w0, Ok k) /\ mset_col (junk_stages sc y0) 0 k = Ok Ks0
                      else w0 = w /\ Ks0 = junk_stages sc y0)) as (w0 & Ks0 & ev & Hi & -> & Hf).
    { unfold stage_iter_start. destruct (sc_FSAL sc).
      - destruct (HF t0 y0 (w_st w) eq_refl) as (s' & k & Hk & Lk).
        destruct (mset_col_ok (junk_stages sc y0) _ _ 0 k (mtab_dim _ _ _) L3 Lk) as (B & HB).
        assert (Hiw : in_world (f_fun F t0 y0) w = (World s' (w_out w), Ok k)) by (unfold in_world; rewrite Hk; reflexivity).
        exists (World s' (w_out w)), B. eexists. rewrite (bind_run _ _ _ _ _ Hiw). unfold bind, lift. rewrite HB. unfold ret.
        split; [reflexivity|]. split; [reflexivity|]. eauto.
      - exists w, (junk_stages sc y0). eexists. unfold ret. split; [reflexivity|]. auto. }
    destruct (H sc _ b Hg Ha Hb w0 Ks0 Hf) as (fuel & w' & x & Hl). exists fuel.
    unfold erk_odeint, erk_guts. unfold bind at 1. unfold lift at 1. rewrite Hg. unfold bind at 1. unfold assert_ at 1. rewrite (erk_verify_R sc Hg).
    assert (Hnd : forall v : world R St, (if ndebug then ret tt else ret tt) v = (v, Ok tt)) by (intros v; destruct ndebug; reflexivity).
    rewrite Hnd. fold (clip t1 t0 dt). unfold bind at 1. unfold assert_ at 1. rewrite Hpos, Hnd. rewrite Ha, Hb.
    unfold bind at 1. unfold lift at 1. fold (junk_stages sc y0). fold (init_sol t0 y0 (junk_stages sc y0) 0). fold (eff_opts opts sc).
    rewrite (bind_run _ _ _ _ _ Hi). rewrite (bind_run _ _ _ _ _ Hl). destruct x; unfold ret; eauto.
  Qed.

  Hypothesis Hfix : eo_adaptive opts = false \/ ~ In m explicit_embedded.
  Lemma eff_fixed sc : erk_get_coefficients (T := R) m = Ok sc -> eo_adaptive (eff_opts opts sc) = false.
  Proof.
    intros Hg. unfold eff_opts. destruct (eo_adaptive opts) eqn:Ea; [|exact Ea]. destruct Hfix as [Hx|Hx]; [discriminate|].
    destruct (sc_b2 sc) eqn:Eb; [reflexivity|]. exfalso. apply Hx.
    destruct (sc_orders m sc Hm Hg) as (p & p2 & Hin & _ & Ef). pose proof (ef_order2 _ _ _ _ _ Ef) as Ho.
    clear - Hin Ho Eb. unfold explicit_orders in Hin. simpl In in Hin.
    destruct Hin as [Hi|[Hi|[Hi|[Hi|[Hi|[Hi|[]]]]]]]; injection Hi as Hi1 Hi2 Hi3; rewrite <- Hi3 in Ho; rewrite <- Hi1; try (simpl; tauto);
      destruct Ho as [Ho _]; congruence.
  Qed.
  Lemma erk_fixed_halts w : exists fuel w' sol, erk_odeint fuel F t0 t1 y0 opts oo m dt w = (w', Ok sol).
  Proof.
    apply halts_odeint. intros sc a b Hg Ha Hb w0 Ks0 Hf.
    destruct (erk_get_ok (T := R) m) as (sc' & Hg' & _ & Hd). rewrite Hg in Hg'. injection Hg' as <-.
    destruct (stages_dim m sc Hm Hd) as (L1 & L2 & L3).
    assert (Hc : 0 < clip t1 t0 dt) by (rewrite clip_R; apply Rmin_glb_lt; lra).
    destruct (Rarch (t1 - t0) (clip t1 t0 dt) Hc) as [N HN].
    pose proof (init_run F false (fun _ => []) (fun _ _ _ => eq_refl) t1 (eff_opts opts sc) sc oo t0 y0 dt (Z.min a b mod 2 ^ 64) w w0 Ks0 L3 Hf) as I0.
    apply (fixed_halts F t0 t1 y0 (eff_opts opts sc) sc oo _ dt (w_out w) HF L3) with (delta := clip t1 t0 dt) (N := N) (atts := []);
      try assumption.
    - rewrite L1. exact Hd.
    - intros Ea. rewrite eff_fixed in Ea by exact Hg. discriminate.
    - apply eff_fixed, Hg.
    - left. cbn [es_dt]. lra.
  Qed.

  Lemma erk_fixed_grid fuel w w' sol : erk_odeint fuel F t0 t1 y0 opts oo m dt w = (w', Ok sol) ->
    (forall k, (k < length (eo_t_vals sol))%nat -> nth k (eo_t_vals sol) 0 = Rmin (t0 + INR k * dt) t1) /\
    (eo_status sol = SUCCESS -> exists N, (1 <= N)%nat /\ INR (N - 1) * dt < t1 - t0 <= INR N * dt /\
       eo_t_vals sol = map (fun k => t0 + INR k * dt) (seq 0 N) ++ [t1]).
  Proof.
    intros Hrun.
    destruct (erk_odeint_finished F false (fun _ => []) (fun _ _ _ => eq_refl) _ _ _ _ _ _ _ _ _ _ _ Hrun) as (_ & sc & a & b & _ & Hg & Hd & _ & _ & atts & O & A & _ & _ & En).
    assert (Hc : 0 < clip t1 t0 dt) by (rewrite clip_R; apply Rmin_glb_lt; lra).
    pose proof (eff_fixed sc Hg) as Ef. pose proof (steps_fixed t0 t1 _ _ dt atts A Ef) as Hsf.
    assert (Hacc : accepted atts = atts).
    { pose proof (ao_ok _ _ _ _ _ _ A) as Hok. rewrite Ef in Hok. clear - Hok. induction Hok as [|x l Hx Hl IH]; [reflexivity|].
      unfold accepted in * . simpl. rewrite Hx, IH. reflexivity. }
    assert (Hgrid : forall k, (k <= length atts)%nat -> time_after t0 (firstn k atts) = Rmin (t0 + INR k * dt) t1).
    { induction k as [|k IH]; intros Hk.
      - change (time_after t0 (firstn 0 atts)) with t0. simpl. rewrite Rmin_left; lra.
      - destruct (nth_error atts k) as [x|] eqn:Ek. 2:{ apply nth_error_None in Ek. lia. }
        rewrite (time_S _ _ _ _ _ _ A k x Ek). pose proof (att_ok _ _ _ _ _ _ A k x Ek) as Hok. rewrite Ef in Hok. rewrite Hok.
        rewrite (Hsf x (nth_error_In _ _ Ek)). pose proof (att_before _ _ _ _ _ _ A k x Ek) as Hb. pose proof (att_t _ _ _ _ _ _ A k x Ek) as Hx.
        rewrite IH in Hx by lia. rewrite S_INR.
        destruct (Rle_dec (t0 + INR k * dt) t1) as [H1|H1]; [rewrite Rmin_left in Hx by exact H1|rewrite Rmin_right in Hx by lra; lra].
        rewrite Hx in * . destruct (Rle_dec dt (t1 - (t0 + INR k * dt))) as [H2|H2].
        + rewrite (Rmin_left dt), Rmin_left by lra. ring.
        + rewrite (Rmin_right dt), Rmin_right by lra. ring. }
    assert (Hnth : forall k, (k < length (eo_t_vals sol))%nat -> nth k (eo_t_vals sol) 0 = Rmin (t0 + INR k * dt) t1).
    { rewrite (ok_t _ _ _ _ _ O), Hacc. intros [|k] Hk.
      - simpl. rewrite Rmin_left; lra.
      - cbn [nth length] in * . rewrite map_length in Hk. assert (Hk' : (k < length atts)%nat) by lia.
        destruct (nth_error atts k) as [x|] eqn:Ek. 2:{ apply nth_error_None in Ek. lia. }
        rewrite (nth_error_nth _ _ 0 (map_nth_error at_end _ _ Ek)). rewrite <- Hgrid by lia.
        rewrite (time_S _ _ _ _ _ _ A k x Ek). pose proof (att_ok _ _ _ _ _ _ A k x Ek) as Hok. rewrite Ef in Hok. rewrite Hok. reflexivity. }
    split; [exact Hnth|]. intros Hs. exists (length atts).
    destruct En as [(_ & _ & _ & _ & E5)|(E1 & _)]; [|rewrite E1 in Hs; discriminate]. apply Rltb_false in E5.
    pose proof (Hgrid (length atts) (le_n _)) as Hlast. rewrite firstn_all in Hlast. rewrite Hlast in E5.
    assert (HN : t1 <= t0 + INR (length atts) * dt) by (pose proof (Rmin_l (t0 + INR (length atts) * dt) t1); lra).
    assert (Hpos : (1 <= length atts)%nat).
    { destruct (length atts) eqn:El; [|lia]. simpl in HN. lra. }
    destruct (nth_error atts (length atts - 1)) as [x|] eqn:Ek. 2:{ apply nth_error_None in Ek. lia. }
    pose proof (att_before _ _ _ _ _ _ A _ x Ek) as Hb. rewrite (att_t _ _ _ _ _ _ A _ x Ek), Hgrid in Hb by lia.
    assert (Hb' : t0 + INR (length atts - 1) * dt < t1).
    { destruct (Rle_dec t1 (t0 + INR (length atts - 1) * dt)) as [Hle|]; [rewrite Rmin_right in Hb by exact Hle; lra|lra]. }
    split; [exact Hpos|]. split; [lra|].
    apply (list_ext_nth 0).
    - rewrite (ok_t _ _ _ _ _ O), Hacc, app_length, map_length, seq_length. simpl. rewrite map_length. lia.
    - intros i Hi. rewrite Hnth by exact Hi. rewrite (ok_t _ _ _ _ _ O), Hacc in Hi. simpl in Hi. rewrite map_length in Hi.
      destruct (Nat.eq_dec i (length atts)) as [->|Hne].
      + rewrite app_nth2, map_length, seq_length, Nat.sub_diag by (rewrite map_length, seq_length; lia). simpl. rewrite Rmin_right; [reflexivity|exact HN].
      + rewrite app_nth1 by (rewrite map_length, seq_length; lia). change (map (fun k => t0 + INR k * dt) (seq 0 (length atts))) with (vtab (length atts) (fun k => t0 + INR k * dt)).
        rewrite (SumsProofs.vtab_nth (length atts)) by lia. apply Rmin_left.
        assert (INR i <= INR (length atts - 1)) by (apply le_INR; lia). nra.
  Qed.
End FixedOdeint.
