(** Fixed-step explicit runs return, in any arithmetic whose clock reaches the end time, and always under a step limit. *)
From Verif Require Import Model.Base Model.Scalar Model.LinAlg Model.Enums Model.Options Model.Coeffs Model.ErkCoeffs Model.Erk.
From Verif Require Import Spec.Observe Spec.ErkSpec Spec.Methods.
From Verif Require Import Proofs.LoopProofs Proofs.OrderProofs Proofs.TablesGeneric Proofs.CoeffsProofs Proofs.ErkProofs Proofs.ErkRun Proofs.ErkTotal.

Section Clock.
  Context {T : Type} {HS : Scalar T}.
  Variable t1 : T.
  (** the clock t, d -> t + c, c with the clipped step c reaches t1 within N steps *)
  Fixpoint clock_stops (N : nat) (t d : T) : Prop :=
    (t <?. t1)%sc = false \/ match N with O => False | S N => clock_stops N (t +. clip t1 t d)%sc (clip t1 t d) end.
End Clock.

Section Total.
  Context {T : Type} {HS : Scalar T} {E : Env T} {LA : LinAlg T} {St : Type}.
  Local Notation W := (world T St).
  Variables (F : functor T St) (t0 t1 : T) (y0 : list T) (opts : erk_options T) (sc : solver_coeffs T) (oo : output_options) (mo : Z).
  Variables (dt0 : T) (out0 : list (T * list T)).
  Let n := length y0.
  Let ns := length (sc_b sc).
  Hypothesis HF : returns_dim F n.
  Hypothesis Hns : (0 < ns)%nat.
  Hypothesis Hdims : dims_ok sc ns = true.
  Hypothesis Ea : eo_adaptive opts = false.
  Local Notation rinv := (run_inv t0 t1 y0 opts sc oo mo dt0 out0 false (fun _ : St => []) []).
  Hypothesis Hoo : write_to_file oo = true -> output_stream oo <> None.

  Lemma body_total_fixed w s : mdim (es_Ks s) n ns -> length (es_y s) = n -> exists w' x, erk_body F t1 opts sc oo mo s w = (w', Ok x).
  Proof.
    intros Hd Hy. unfold erk_body. fold (limit_hit opts s). destruct (limit_hit opts s); [unfold ret; eauto|].
    fold (clip t1 (es_t s) (es_dt s)). set (h := clip t1 (es_t s) (es_dt s)).
    destruct (stages_total F y0 sc HF Hns Hdims (es_t s) h (es_y s) (es_Ks s) (eo_fun_evals (es_sol s)) w Hy Hd) as (w1 & Ks & ev & Hl & HdK).
    rewrite (bind_run _ _ _ _ _ Hl). change (mdim Ks n ns) in HdK. pose proof HdK as (K1 & K2 & K3).
    assert (Hm : mv Ks (sc_b sc) = Ok (vtab n (la_mv Ks (sc_b sc)))) by (rewrite mv_ok by exact K2; rewrite K1; reflexivity).
    unfold lift at 1. unfold bind at 1. rewrite Hm.
    unfold lift at 1. unfold bind at 1. rewrite vadd_ok by (rewrite vscale_length, vtab_length; exact Hy).
    set (yn := zipwith sadd (es_y s) (vscale h (vtab n (la_mv Ks (sc_b sc))))).
    rewrite Ea. unfold ret at 1. unfold bind at 1.
    assert (exists w2, erk_write oo (es_t s) yn w1 = (w2, Ok tt)) as [w2 Hw].
    { unfold erk_write. destruct (write_to_file oo); [|unfold ret; eauto]. destruct (output_stream oo); [unfold write_line; eauto|].
      exfalso. apply Hoo; reflexivity. }
    rewrite (bind_run _ _ _ _ _ Hw).
    assert (exists Ks', fsal_hook sc Ks = Ok Ks') as [Ks' Hh].
    { unfold fsal_hook. destruct (sc_FSAL sc); [|eauto].
      destruct (mcol_ok Ks n ns (ns - 1) HdK ltac:(lia)) as [Hcl Hlen]. fold ns. rewrite Hcl. cbn [rbind].
      destruct (mset_col_ok Ks n ns 0 _ HdK Hns Hlen) as (B & HB). eauto. }
    unfold bind, lift. rewrite Hh. unfold ret. eauto.
  Qed.

  Local Notation loop := (while (fun s => es_t s <?. t1)%sc (erk_body F t1 opts sc oo mo)).
  Lemma fixed_loop N : forall w s atts, rinv atts w s ->
    clock_stops t1 N (es_t s) (es_dt s) \/ (0 <= eo_max_steps opts /\ eo_max_steps opts - es_step s < Z.of_nat N)%Z ->
    exists w' x, loop (S N) s w = (w', Ok x).
  Proof.
    induction N as [|N IH]; intros w s atts I H.
    - cbn [while]. destruct (es_t s <?. t1)%sc eqn:Et; [|unfold ret; eauto].
      destruct H as [[H|[]]|[H1 H2]]; [congruence|].
      unfold erk_body. replace ((0 <=? eo_max_steps opts)%Z && (eo_max_steps opts <? es_step s)%Z) with true
        by (symmetry; apply andb_true_intro; split; [apply Z.leb_le; lia|apply Z.ltb_lt; lia]).
      unfold bind, ret. eauto.
    - cbn [while]. destruct (es_t s <?. t1)%sc eqn:Et; [|unfold ret; eauto].
      destruct (body_total_fixed w s (ri_Ks _ _ _ _ _ _ _ _ _ _ _ _ _ _ _ I) (ri_ylen _ _ _ _ _ _ _ _ _ _ _ _ _ _ _ I)) as (w' & x & Hb).
      rewrite (bind_run _ _ _ _ _ Hb). destruct x as [s'|r]; [|unfold ret; eauto].
      apply erk_body_inl in Hb. destruct Hb as (w1 & Ks & ev & dy & yn & err & est & rej & nd & A).
      assert (Hlc : length (sc_c sc) = length (sc_b sc)) by (destruct (dims_of sc ns Hdims) as (Db & Dc & _); congruence).
      pose proof (run_step F t0 t1 y0 opts sc oo mo dt0 out0 false (fun _ : St => []) [] (fun _ _ _ => eq_refl) Hns Hlc _ _ _ _ _ _ _ _ _ _ _ _ _ _ I Et A) as I'.
      pose proof (ap_ctl _ _ _ _ _ _ _ _ _ _ _ _ _ _ _ _ _ _ _ A) as Hc. rewrite Ea in Hc. destruct Hc as (_ & _ & -> & ->).
      pose proof (ap_next _ _ _ _ _ _ _ _ _ _ _ _ _ _ _ _ _ _ _ A) as Hn. cbv zeta in Hn. destruct Hn as (Ks' & _ & Hs').
      eapply IH; [exact I'|]. destruct H as [[H|H]|[H1 H2]]; [congruence|left; rewrite Hs'; exact H|right]. split; [exact H1|].
      rewrite Hs'. cbn [es_step]. lia.
  Qed.
End Total.

Lemma table_orders {T} {HS : Scalar T} m sc : In m explicit_methods -> erk_table (T := T) m = Ok sc ->
  (exists a b, sc_order sc = Some a /\ sc_order2 sc = Some b) /\ (~ In m explicit_embedded -> sc_b2 sc = []).
Proof.
  simpl. intros [<-|[<-|[<-|[<-|[<-|[<-|[]]]]]]] [= <-]; (split; [eexists _, _; split; reflexivity|]);
    intros Hx; try reflexivity; exfalso; apply Hx; simpl; tauto.
Qed.

Section Odeint.
  Context {T : Type} {HS : Scalar T} {E : Env T} {LA : LinAlg T} {St : Type}.
  Variables (F : functor T St) (t0 t1 : T) (y0 : list T) (opts : erk_options T) (oo : output_options) (m : Z) (dt : T).
  Hypothesis HF : returns_dim F (length y0).
  Hypothesis Hm : In m explicit_methods.
  Hypothesis Hoo : write_to_file oo = true -> output_stream oo <> None.
  Hypothesis Hfix : eo_adaptive opts = false \/ ~ In m explicit_embedded.
  Hypothesis zero_eq : (slit 0 0 ==?. slit 0 0)%sc = true.
  Hypothesis Hpos : ndebug = true \/ (clip t1 t0 dt >?. sZ 0)%sc = true.

  Lemma eff_fixed_gen sc : erk_table (T := T) m = Ok sc -> eo_adaptive (eff_opts opts sc) = false.
  Proof.
    intros Hg. unfold eff_opts. destruct (eo_adaptive opts) eqn:Ea; [|exact Ea]. destruct Hfix as [Hx|Hx]; [discriminate|].
    destruct (table_orders m sc Hm Hg) as [_ H]. rewrite (H Hx). reflexivity.
  Qed.
  Lemma fixed_returns N w : clock_stops t1 N t0 (clip t1 t0 dt) \/ (0 <= eo_max_steps opts < Z.of_nat N)%Z ->
    exists w' sol, erk_odeint (S N) F t0 t1 y0 opts oo m dt w = (w', Ok sol).
  Proof.
    intros H. destruct (erk_get_ok (T := T) m) as (sc & Hg & Htab & Hd). destruct (stages_dim m sc Hm Hd) as (L1 & L2 & L3).
    destruct (table_orders m sc Hm Htab) as [(a & b & Ha & Hb) _].
    pose proof (erk_table_verify zero_eq m sc Hm Htab) as Hv.
    assert (exists w0 Ks0 ev, (if sc_FSAL sc then bind (in_world (f_fun F t0 y0)) (fun k => bind (lift (mset_col (junk_stages sc y0) 0 k)) (fun Ks' => ret (Ks', with_counts (init_sol t0 y0 (junk_stages sc y0) 0) 0 0 1)))
       else ret (junk_stages sc y0, init_sol t0 y0 (junk_stages sc y0) 0)) w = (w0, Ok (Ks0, ev)) /\
       ev = init_sol t0 y0 (junk_stages sc y0) (stage_iter_start sc) /\
       (if sc_FSAL sc then exists k, in_world (f_fun F t0 y0) w = (w0, Ok k) /\ mset_col (junk_stages sc y0) 0 k = Ok Ks0
                      else w0 = w /\ Ks0 = junk_stages sc y0)) as (w0 & Ks0 & ev & Hi & -> & Hf).
    { unfold stage_iter_start. destruct (sc_FSAL sc).
      - destruct (HF t0 y0 (w_st w) eq_refl) as (s' & k & Hk & Lk).
        destruct (mset_col_ok (junk_stages sc y0) _ _ 0 k (mtab_dim _ _ _) L3 Lk) as (B & HB).
        assert (Hiw : in_world (f_fun F t0 y0) w = (World s' (w_out w), Ok k)) by (unfold in_world; rewrite Hk; reflexivity).
        exists (World s' (w_out w)), B. eexists. rewrite (bind_run _ _ _ _ _ Hiw). unfold bind, lift. rewrite HB. unfold ret.
        split; [reflexivity|]. split; [reflexivity|]. eauto.
      - exists w, (junk_stages sc y0). eexists. unfold ret. split; [reflexivity|]. auto. }
    pose proof (init_run F false (fun _ => []) (fun _ _ _ => eq_refl) t1 (eff_opts opts sc) sc oo t0 y0 dt (Z.min a b mod 2 ^ 64) w w0 Ks0 L3 Hf) as I0.
    assert (Hms : eo_max_steps (eff_opts opts sc) = eo_max_steps opts).
    { unfold eff_opts. match goal with |- context [if ?c then _ else _] => destruct c end; reflexivity. }
    destruct (fixed_loop F t0 t1 y0 (eff_opts opts sc) sc oo _ dt (w_out w) HF L3 ltac:(rewrite L1; exact Hd) (eff_fixed_gen sc Htab) Hoo N _ _ _ I0) as (w' & x & Hl).
    { cbn [es_t es_dt es_step]. rewrite Hms. destruct H as [H|H]; [left; exact H|right; lia]. }
    unfold erk_odeint, erk_guts. unfold bind at 1. unfold lift at 1. rewrite Hg. unfold bind at 1. unfold assert_ at 1. rewrite Hv.
    assert (Hnd : forall v : world T St, (if ndebug then ret tt else ret tt) v = (v, Ok tt)) by (intros v; destruct ndebug; reflexivity).
    rewrite Hnd. fold (clip t1 t0 dt).
    assert (Hp : forall v : world T St, assert_ ndebug (clip t1 t0 dt >?. sZ 0)%sc v = (v, Ok tt)).
    { intros v. unfold assert_. destruct Hpos as [->| ->]; [reflexivity|apply Hnd]. }
    unfold bind at 1. rewrite Hp. rewrite Ha, Hb.
    unfold bind at 1. unfold lift at 1. fold (junk_stages sc y0). fold (init_sol t0 y0 (junk_stages sc y0) 0). fold (eff_opts opts sc).
    rewrite (bind_run _ _ _ _ _ Hi). rewrite (bind_run _ _ _ _ _ Hl). destruct x; unfold ret; eauto.
  Qed.
End Odeint.

(** the clock bounds the number of steps *)
Section Count.
  Context {T : Type} {HS : Scalar T}.
  Variables (t0 t1 : T) (opts : erk_options T) (mo : Z) (dt0 : T) (atts : list (attempt T)).
  Hypothesis A : attempts_ok t0 t1 opts mo dt0 atts.
  Hypothesis Ea : eo_adaptive opts = false.
  Lemma clock_prefix N : clock_stops t1 N t0 (clip t1 t0 dt0) -> forall k, (k <= length atts)%nat ->
    (k <= N)%nat /\ clock_stops t1 (N - k) (time_after t0 (firstn k atts)) (dt_after t0 t1 opts mo dt0 (firstn k atts)).
  Proof.
    intros H. destruct A as [A1 A2 A3 A4 _ _]. induction k as [|k IH]; intros Hk.
    - split; [lia|]. rewrite Nat.sub_0_r. exact H.
    - destruct (IH ltac:(lia)) as [I1 I2]. destruct (nth_error atts k) as [a|] eqn:Ek.
      2:{ apply nth_error_None in Ek. lia. }
      pose proof (A1 k a Ek) as Ht. pose proof (A2 k a Ek) as Hd. rewrite Forall_forall in A3, A4.
      pose proof (A3 a (nth_error_In _ _ Ek)) as Ho. rewrite Ea in Ho. pose proof (A4 a (nth_error_In _ _ Ek)) as Hb.
      assert (Hf : firstn (S k) atts = firstn k atts ++ [a]).
      { clear - Ek. revert k Ek. induction atts as [|x l IH]; intros [|k] H; simpl in *; try discriminate; [injection H as ->; reflexivity|]. rewrite (IH k H). reflexivity. }
      rewrite Hf, time_after_snoc, Ho. unfold dt_after. rewrite fold_left_app. cbn [fold_left]. unfold next_dt. rewrite Ea.
      fold (dt_after t0 t1 opts mo dt0 (firstn k atts)) in I2.
      destruct (N - k)%nat as [|r] eqn:Er; cbn [clock_stops] in I2; rewrite <- Ht in I2; (destruct I2 as [I2|I2]; [congruence|]); [contradiction|].
      split; [lia|]. replace (N - S k)%nat with r by lia. unfold at_end. rewrite Hd. exact I2.
  Qed.
End Count.

Section Final.
  Context {T : Type} {HS : Scalar T} {E : Env T} {LA : LinAlg T} {St : Type}.
  Variables (F : functor T St) (t0 t1 : T) (y0 : list T) (opts : erk_options T) (oo : output_options) (m : Z) (dt : T).
  Hypothesis HF : returns_dim F (length y0).
  Hypothesis Hm : In m explicit_methods.
  Hypothesis Hoo : write_to_file oo = true -> output_stream oo <> None.
  Hypothesis Hfix : eo_adaptive opts = false \/ ~ In m explicit_embedded.
  Hypothesis zero_eq : (slit 0 0 ==?. slit 0 0)%sc = true.
  Lemma clock_final N : ndebug = true \/ (clip t1 t0 dt >?. sZ 0)%sc = true -> clock_stops t1 N t0 (clip t1 t0 dt) ->
    forall w, exists w' sol, (forall fuel, (S N <= fuel)%nat -> erk_odeint fuel F t0 t1 y0 opts oo m dt w = (w', Ok sol)) /\
    (length (eo_t_vals sol) <= S N)%nat.
  Proof.
    intros Hpos H w. destruct (fixed_returns F t0 t1 y0 opts oo m dt HF Hm Hoo Hfix zero_eq Hpos N w (or_introl H)) as (w' & sol & Hr).
    exists w', sol. split; [intros fuel Hf; exact (erk_odeint_more F (S N) fuel _ _ _ _ _ _ _ _ _ _ Hf Hr)|].
    destruct (erk_odeint_finished F false (fun _ => []) (fun _ _ _ => eq_refl) _ _ _ _ _ _ _ _ _ _ _ Hr) as (_ & sc & a & b & _ & Hg & _ & _ & _ & atts & O & A & _ & _ & _).
    destruct (erk_get_ok (T := T) m) as (sc' & Hg' & Htab & _). rewrite Hg in Hg'. injection Hg' as <-.
    destruct (clock_prefix t0 t1 _ _ dt atts A (eff_fixed_gen opts m Hm Hfix sc Htab) N H (length atts) (le_n _)) as [Hl _].
    rewrite (ok_t _ _ _ _ _ O). cbn [length]. rewrite map_length.
    assert (length (accepted atts) <= length atts)%nat; [|lia]. unfold accepted. clear. induction atts as [|x l IH]; simpl; [lia|]. destruct (at_ok x); simpl; lia.
  Qed.
  Lemma limit_final : ndebug = true \/ ((if t0 +. dt >?. t1 then t1 -. t0 else dt) >?. sZ 0)%sc = true -> (0 <= eo_max_steps opts)%Z ->
    forall w, exists w' sol, forall fuel, (Z.to_nat (eo_max_steps opts) + 2 <= fuel)%nat -> erk_odeint fuel F t0 t1 y0 opts oo m dt w = (w', Ok sol).
  Proof.
    intros Hpos H w. destruct (fixed_returns F t0 t1 y0 opts oo m dt HF Hm Hoo Hfix zero_eq Hpos (S (Z.to_nat (eo_max_steps opts))) w) as (w' & sol & Hr); [right; lia|].
    exists w', sol. intros fuel Hf. apply (erk_odeint_more F (S (S (Z.to_nat (eo_max_steps opts)))) fuel); [lia|exact Hr].
  Qed.
End Final.
