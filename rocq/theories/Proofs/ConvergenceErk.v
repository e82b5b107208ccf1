(** Convergence of the explicit integrator. *)
From Coq Require Import Reals Lra FunctionalExtensionality Sorting.Sorted.
From Coquelicot Require Import Coquelicot.
From Verif Require Import Model.Base Model.Scalar Model.LinAlg Model.Enums Model.Options Model.Coeffs Model.ErkCoeffs Model.Erk.
From Verif Require Import Spec.Sums Spec.Trees Spec.RkSpec Spec.Observe Spec.ErkSpec Spec.Methods Spec.ConvergenceSpec.
From Verif Require Import Proofs.SumsProofs Proofs.RVec Proofs.OrderProofs Proofs.TablesGeneric Proofs.ErkCoeffsProofs Proofs.ErkProofs Proofs.ErkRun Proofs.ErkGeneric Proofs.ErkReal Proofs.ErkTimes Proofs.ErkTotal Proofs.ErkExact Proofs.ErkFinal Proofs.ErkBounded Proofs.OrderTheory Proofs.Convergence.
Local Open Scope R_scope.

(** * Time as component 0 *)
Definition aug (t : R) (y : list R) : vec := fun i => match i with O => t | S i => ventry y i end.
Definition adf (df : list nat -> vec -> nat -> R) (l : list nat) (x : vec) (q : nat) : R :=
  match q with O => (match l with [] => 1 | _ => 0 end) | S q => df l x q end.

Lemma vtab_ventry y n : length y = n -> vtab n (fun i => ventry y i) = y.
Proof.
  intros <-. apply nth_ext with (d := 0) (d' := 0); unfold vtab; rewrite map_length, seq_length; [reflexivity|].
  intros i Hi. rewrite (nth_indep _ 0 (ventry y 0)) by (rewrite map_length, seq_length; exact Hi). rewrite (map_nth (fun i => ventry y i)), seq_nth by exact Hi. reflexivity.
Qed.

Section Aug.
Variables (p n : nat) (M r t0 t1 : R) (f : R -> list R -> list R) (phi : R -> list R) (df : list nat -> vec -> nat -> R).
Hypothesis Hs : solves n f t0 t1 phi.
Hypothesis Hd : derivatives_bounded p n M (tube n r t0 t1 phi) f df.

Lemma aug_tube t x : t0 <= t <= t1 -> small (S n) r (fun i => x i - aug t (phi t) i) -> tube n r t0 t1 phi x.
Proof. intros Ht Hx. exists t. split; [exact Ht|]. split; [apply (Hx O); lia|]. intros i Hi. apply (Hx (S i)). lia. Qed.

Lemma aug_good t : t0 <= t <= t1 -> good (S n) p (Rmax M 1) (adf df) (aug t (phi t)) r.
Proof.
  intros Ht. destruct Hd as (_ & D2 & D3). split.
  - intros l x [|q] Hl Hq Hx; simpl.
    + destruct l; [rewrite Rabs_R1; apply Rmax_r|rewrite Rabs_R0; apply Rle_trans with 1; [lra|apply Rmax_r]].
    + eapply Rle_trans; [apply D3; [exact Hl|lia|exact (aug_tube t x Ht Hx)]|apply Rmax_l].
  - intros l x v s [|q] Hl Hq Hx; cbn [adf].
    + rewrite Rsum_0 by (intros; ring). apply (is_derive_const (K := R_AbsRing) (V := R_NormedModule)).
    + apply is_derive_Reals. apply (D2 l x v s q Hl); [lia|]. apply (aug_tube t); assumption.
Qed.

Lemma aug_flow t q : t0 <= t <= t1 -> (q < S n)%nat -> is_derive (fun t => aug t (phi t) q) t (adf df [] (aug t (phi t)) q).
Proof.
  intros Ht Hq. destruct q as [|q]; cbn [adf aug]; [apply (is_derive_id (K := R_AbsRing))|].
  rewrite (proj1 Hd) by lia. unfold rhs_at. cbn [aug]. rewrite vtab_ventry by apply Hs. apply is_derive_Reals. apply Hs; [exact Ht|lia].
Qed.

(** One Runge-Kutta step in the augmented space. *)
Lemma aug_step s a b c t h y y' k : rk_step n s a b c f t h y y' k -> (forall i, (i < s)%nat -> Rsum s (fun j => a i j) = c i) -> Rsum s b = 1 ->
  exists Z : nat -> vec,
  (forall i q, (i < s)%nat -> (q < S n)%nat -> Z i q = h * Rsum s (fun j => a i j * adf df [] (fun p => aug t y p + Z j p) q)) /\
  (forall q, (q < S n)%nat -> aug (t + h) y' q = aug t y q + h * Rsum s (fun i => b i * adf df [] (fun p => aug t y p + Z i p) q)) /\
  (forall i q, (i < s)%nat -> (q < n)%nat -> df [] (fun p => aug t y p + Z i p) q = ventry (nth i k []) q).
Proof.
  intros (Hk & Hst & Hy') Hrow Hb.
  set (Z := fun i q => match q with O => c i * h | S q => h * Rsum s (fun j => a i j * ventry (nth j k []) q) end).
  assert (E : forall j q, (j < s)%nat -> (q < n)%nat -> df [] (fun p => aug t y p + Z j p) q = ventry (nth j k []) q).
  { intros j q Hj Hq. rewrite (proj1 Hd) by exact Hq. unfold rhs_at. cbn [aug Z]. transitivity (ventry (f (t + c j * h) (vtab n (fun q => ventry y q + h * Rsum s (fun j0 => a j j0 * ventry (nth j0 k []) q)))) q); [reflexivity|]. rewrite <- (proj2 (Hst j Hj)). reflexivity. }
  exists Z. split; [|split; [|exact E]].
  - intros i [|q] Hi Hq; cbn [Z adf].
    + rewrite <- (Hrow i Hi), Rmult_comm. f_equal. apply Rsum_ext. intros j _. ring.
    + f_equal. apply Rsum_ext. intros j Hj. rewrite E by (assumption || lia). reflexivity.
  - intros [|q] Hq; cbn [aug adf].
    + erewrite (Rsum_ext s); [|intros i _; apply Rmult_1_r]. rewrite Hb. ring.
    + rewrite Hy', ventry_vt by lia. f_equal. f_equal. apply Rsum_ext. intros i Hi. rewrite E by (assumption || lia). reflexivity.
Qed.
End Aug.

Lemma sorted_nth ts : StronglySorted Rlt ts -> forall k, (S k < length ts)%nat -> nth k ts 0 < nth (S k) ts 0.
Proof.
  induction 1 as [|t ts Hs IH Hf]; intros k Hk; [simpl in Hk; lia|]. destruct k as [|k].
  - simpl. rewrite Forall_forall in Hf. apply Hf. apply nth_In. simpl in Hk. lia.
  - apply IH. simpl in Hk. lia.
Qed.

Theorem erk_converges m p p2 P n f phi t0 t1 r : In (m, p, p2) explicit_orders -> (1 <= P <= p)%nat -> t0 < t1 -> 0 < r -> solves n f t0 t1 phi -> smooth_near P n r t0 t1 f phi ->
  exists h0 C, 0 < h0 /\ 0 <= C /\
  forall (HE : Env R) (HL : LinAlg R) (HX : ExactProducts HL) (St : Type) (F : functor R St), computes F f ->
  forall fuel opts oo dt w w' sol H, (ndebug = false \/ 0 < dt) -> erk_odeint fuel F t0 t1 (phi t0) opts oo m dt w = (w', Ok sol) ->
  steps_at_most H (eo_t_vals sol) -> 0 <= H <= h0 ->
  forall k q, (k < length (eo_t_vals sol))%nat -> (q < n)%nat ->
  Rabs (ventry (nth k (eo_y_vals sol) []) q - ventry (phi (nth k (eo_t_vals sol) 0)) q) <= C * H ^ P.
Proof.
  intros Hin HPp Ht Hr Hs (M & df & Hd).
  destruct (TablesFinal.erk_orders m p p2 Hin) as (sc & s & Hfa).
  pose proof (ef_get _ _ _ _ _ Hfa) as Hg. destruct (dims_of sc s (ef_dims _ _ _ _ _ Hfa)) as (Ls & _). 
  assert (Hm : In m explicit_methods).
  { simpl in Hin. repeat (destruct Hin as [Hin|Hin]; [injection Hin as <- <- <-; simpl; tauto|]). contradiction. }
  destruct (sc_facts m sc Hm Hg) as (_ & _ & Hlow & Hrow & Hb). destruct (ef_exact _ _ _ _ _ Hfa) as [Ho _]. rewrite <- Ls in Ho. clear Ls.
  assert (HM1 : 0 <= Rmax M 1) by (apply Rle_trans with 1; [lra|apply Rmax_r]).
  destruct (many_steps (S n) P (Rmax M 1) (adf df) HM1 (proj1 HPp) (length (sc_b sc)) (mfun (sc_A sc)) (vfun (sc_b sc)) Hlow t0 t1 r (fun t => aug t (phi t)) Ht Hr (fun t Hv => Ho t (Nat.le_trans _ _ _ Hv (proj2 HPp)))
    (aug_good P n M r t0 t1 f phi df Hd) (aug_flow P n M r t0 t1 f phi df Hs Hd)) as (h0 & C & Hh0 & HC & K).
  exists h0, C. split; [exact Hh0|]. split; [exact HC|].
  intros HE HL HX St F HF fuel opts oo dt w w' sol H Hdt Hrun Hst HH.
  assert (Hn : length (phi t0) = n) by apply Hs.
  destruct (erk_is_rk F f HF _ _ _ _ _ _ _ _ _ _ _ Hrun) as (sc' & Hg' & Hsteps). rewrite Hg in Hg'. injection Hg' as <-. rewrite Hn in Hsteps.
  destruct (y_first F _ _ _ _ _ _ _ _ _ _ _ Hrun) as [Hy0 Ht0].
  assert (Hdt' : ndebug = false \/ (t0 < t1 /\ 0 < dt)) by (destruct Hdt; [left|right; split]; assumption).
  destruct (erk_times F _ _ _ _ _ _ _ _ _ _ _ Hdt' Hrun) as (T1 & T2 & _). rewrite Forall_forall in T2.
  set (ts := eo_t_vals sol) in * . set (ys := eo_y_vals sol) in * .
  assert (HZ : exists Z : nat -> nat -> vec, forall k, (S k < length ts)%nat -> let h := nth (S k) ts 0 - nth k ts 0 in
    (forall i q, (i < length (sc_b sc))%nat -> (q < S n)%nat -> Z k i q = h * Rsum (length (sc_b sc)) (fun j => mfun (sc_A sc) i j * adf df [] (fun p => aug (nth k ts 0) (nth k ys []) p + Z k j p) q)) /\
    (forall q, (q < S n)%nat -> aug (nth (S k) ts 0) (nth (S k) ys []) q = aug (nth k ts 0) (nth k ys []) q + h * Rsum (length (sc_b sc)) (fun i => vfun (sc_b sc) i * adf df [] (fun p => aug (nth k ts 0) (nth k ys []) p + Z k i p) q))).
  { clear - Hsteps Hd Hrow Hb. induction (length ts) as [|N IH]; [exists (fun _ _ _ => 0); intros; lia|].
    destruct IH as (Z & HZ); [intros k Hk; apply Hsteps; lia|].
    destruct N as [|N]; [exists (fun _ _ _ => 0); intros; lia|].
    destruct (Hsteps N ltac:(lia)) as (k & _ & RK).
    destruct (aug_step P n M r t0 t1 f phi df Hd _ _ _ _ _ _ _ _ _ RK Hrow Hb) as (Z1 & A1 & A2 & _).
    exists (fun k => if (k =? N)%nat then Z1 else Z k). intros i Hi. cbv zeta. destruct (Nat.eqb_spec i N) as [->|Hne].
    - split; [exact A1|]. replace (nth N ts 0 + (nth (S N) ts 0 - nth N ts 0)) with (nth (S N) ts 0) in A2 by ring. exact A2.
    - apply HZ. lia. }
  destruct HZ as (Z & HZ). intros k q Hk Hq.
  refine (K (length ts) (fun k => nth k ts 0) (fun k => aug (nth k ts 0) (nth k ys [])) Z H HH Ht0 _ _ _ HZ k Hk (S q) ltac:(lia)).
  - intros i Hi. apply T2. apply nth_In. exact Hi.
  - intros i Hi. split; [|apply Hst; exact Hi]. pose proof (sorted_nth ts T1 i Hi). lra.
  - intros i _. cbv beta. rewrite Ht0, Hy0. reflexivity.
Qed.

(** Fixed steps *)
Lemma fixed_steps t0 t1 dt ts : 0 < dt -> (forall k, (k < length ts)%nat -> nth k ts 0 = Rmin (t0 + INR k * dt) t1) -> steps_at_most dt ts.
Proof.
  intros Hdt Hts k Hk. rewrite !Hts by lia. rewrite S_INR. unfold Rmin. destruct (Rle_dec (t0 + INR k * dt) t1), (Rle_dec (t0 + (INR k + 1) * dt) t1); lra.
Qed.

Theorem erk_fixed_converges m p p2 P n f phi t0 t1 r : In (m, p, p2) explicit_orders -> (1 <= P <= p)%nat -> t0 < t1 -> 0 < r -> solves n f t0 t1 phi -> smooth_near P n r t0 t1 f phi ->
  preserves_dim f n ->
  exists h0 C, 0 < h0 /\ 0 <= C /\
  forall (HE : Env R) (HL : LinAlg R) (HX : ExactProducts HL) (St : Type) (F : functor R St), total_fun F f ->
  forall opts oo dt, (write_to_file oo = true -> output_stream oo <> None) -> eo_adaptive opts = false \/ ~ In m explicit_embedded -> (eo_max_steps opts < 0)%Z -> 0 < dt <= h0 ->
  forall w, exists w' sol, (exists fuel0, forall fuel, (fuel0 <= fuel)%nat -> erk_odeint fuel F t0 t1 (phi t0) opts oo m dt w = (w', Ok sol)) /\
  eo_status sol = SUCCESS /\ last (eo_t_vals sol) t0 = t1 /\
  (forall k q, (k < length (eo_t_vals sol))%nat -> (q < n)%nat ->
    Rabs (ventry (nth k (eo_y_vals sol) []) q - ventry (phi (nth k (eo_t_vals sol) 0)) q) <= C * dt ^ P) /\
  forall q, (q < n)%nat -> Rabs (ventry (last (eo_y_vals sol) []) q - ventry (phi t1) q) <= C * dt ^ P.
Proof.
  intros Hin HPp Ht Hr Hs Hsm Hf. destruct (erk_converges m p p2 P n f phi t0 t1 r Hin HPp Ht Hr Hs Hsm) as (h0 & C & Hh0 & HC & K).
  exists h0, C. split; [exact Hh0|]. split; [exact HC|]. intros HE HL HX St F HF opts oo dt Hoo Had Hmax Hdt w.
  assert (Hm : In m explicit_methods).
  { clear - Hin. simpl in Hin. repeat (destruct Hin as [Hin|Hin]; [injection Hin as <- <- <-; simpl; tauto|]). contradiction. }
  assert (Hn : length (phi t0) = n) by apply Hs. rewrite <- Hn in Hf.
  destruct (fixed_final HE HL St F t0 t1 (phi t0) opts oo m dt (total_returns _ _ _ HF Hf) Hm Hoo Ht (proj1 Hdt) Had w) as (N & w' & sol & Hrun & Hgrid & _ & Hok).
  exists w', sol. split; [exists N; exact Hrun|]. specialize (Hok Hmax). specialize (Hrun N (le_n _)).
  split; [exact Hok|]. destruct (erk_times F _ _ _ _ _ _ _ _ _ _ _ (or_intror (conj Ht (proj1 Hdt))) Hrun) as (_ & _ & Hl). specialize (Hl Hok). split; [exact Hl|].
  assert (A : forall k q, (k < length (eo_t_vals sol))%nat -> (q < n)%nat ->
    Rabs (ventry (nth k (eo_y_vals sol) []) q - ventry (phi (nth k (eo_t_vals sol) 0)) q) <= C * dt ^ P).
  { intros k q Hk Hq. apply (K HE HL HX St F (total_computes _ _ HF) N opts oo dt w w' sol dt (or_intror (proj1 Hdt)) Hrun); try assumption; [|lra].
    apply (fixed_steps t0 t1); [lra|exact Hgrid]. }
  split; [exact A|]. intros q Hq.
  destruct (erk_aligned F N t0 t1 (phi t0) opts oo m dt w w' sol Hrun) as (L1 & L2 & _). destruct (y_first F _ _ _ _ _ _ _ _ _ _ _ Hrun) as [Hy0 Ht0].
  destruct (eo_t_vals sol) as [|ta tl] eqn:Et; [simpl in L1; lia|].
  assert (E1 : last (ta :: tl) t0 = nth (length tl) (ta :: tl) 0).
  { clear. revert ta. induction tl as [|x tl IH]; intros ta; [reflexivity|]. change (last (x :: tl) t0 = nth (length tl) (x :: tl) 0). apply IH. }
  assert (E2 : last (eo_y_vals sol) [] = nth (length tl) (eo_y_vals sol) []).
  { simpl in L2. clear - L2. destruct (eo_y_vals sol) as [|ya yl]; [discriminate|]. injection L2 as L2. rewrite <- L2. clear. revert ya. induction yl as [|x yl IH]; intros ya; [reflexivity|]. change (last (x :: yl) [] = nth (length yl) (x :: yl) []). apply IH. }
  specialize (A (length tl) q ltac:(simpl; lia) Hq). rewrite E2. rewrite <- E1, Hl in A. exact A.
Qed.

(** Adaptive steps with a limit on the step size *)
Lemma time_after_last (atts : list (attempt R)) : forall t0, time_after t0 atts = last (t0 :: map at_end (accepted atts)) t0.
Proof.
  induction atts as [|x l IH] using rev_ind; intros t0; [reflexivity|]. unfold time_after, accepted in * . rewrite fold_left_app, filter_app. cbn [fold_left filter].
  destruct (at_ok x); [|rewrite app_nil_r; apply IH]. rewrite map_app. cbn [map]. rewrite app_comm_cons, last_last. reflexivity.
Qed.
Lemma chained_firstn (t0 : R) atts x : chained t0 (atts ++ [x]) -> chained t0 atts /\ at_t x = time_after t0 atts.
Proof.
  intros Hc. split.
  - intros k y Hk. assert (Hl : (k < length atts)%nat) by (apply nth_error_Some; congruence). rewrite (Hc k y) by (rewrite nth_error_app1; assumption). rewrite firstn_app.
    replace (k - length atts)%nat with 0%nat by lia. rewrite firstn_O, app_nil_r. reflexivity.
  - rewrite (Hc (length atts) x). 
    + rewrite firstn_app, Nat.sub_diag, firstn_O, app_nil_r, firstn_all. reflexivity.
    + rewrite nth_error_app2, Nat.sub_diag by lia. reflexivity.
Qed.
Lemma nth_last (l : list R) d d' : l <> [] -> nth (length l - 1) l d = last l d'.
Proof.
  intros Hl. destruct (exists_last Hl) as (l' & x & ->). rewrite last_last, app_length. cbn [length]. rewrite app_nth2 by lia. replace (length l' + 1 - 1 - length l')%nat with 0%nat by lia. reflexivity.
Qed.
Lemma attempts_steps H (t0 : R) atts : chained t0 atts -> (forall x, In x atts -> at_dt x <= H) -> steps_at_most H (t0 :: map at_end (accepted atts)).
Proof.
  induction atts as [|x l IH] using rev_ind; intros Hc Hx; [intros k Hk; simpl in Hk; lia|].
  destruct (chained_firstn t0 l x Hc) as [Hc' Ht]. specialize (IH Hc' (fun y Hy => Hx y (in_or_app _ _ _ (or_introl Hy)))). unfold accepted in * . rewrite filter_app. cbn [filter].
  destruct (at_ok x); [|rewrite app_nil_r; exact IH]. rewrite map_app, app_comm_cons. cbn [map]. set (ts := t0 :: map at_end (filter at_ok l)) in * . intros k Hk.
  rewrite app_length in Hk. cbn [length] in Hk. destruct (Nat.eq_dec (S k) (length ts)) as [E|Ne].
  - rewrite (app_nth2 ts) by lia. rewrite E, Nat.sub_diag, app_nth1 by lia. cbn [nth]. replace k with (length ts - 1)%nat by lia. rewrite (nth_last ts 0 t0) by (unfold ts; discriminate).
    unfold at_end. cbn [sadd RScalar]. rewrite Ht, time_after_last. fold (accepted l) in ts. unfold ts, accepted. specialize (Hx x). rewrite in_app_iff in Hx. specialize (Hx (or_intror (or_introl eq_refl))). lra.
  - rewrite !app_nth1 by lia. apply IH. lia.
Qed.

Lemma erk_limited_steps {HE : Env R} {HL : LinAlg R} {St} (F : functor R St) fuel t0 t1 y0 opts oo m dt w w' sol H :
  (ndebug = false \/ (t0 < t1 /\ 0 < dt)) -> erk_odeint fuel F t0 t1 y0 opts oo m dt w = (w', Ok sol) ->
  eo_adaptive opts = true -> In m explicit_embedded -> dt <= H -> 0 < eo_max_dt opts <= H -> steps_at_most H (eo_t_vals sol).
Proof.
  intros Hp Hrun Ead Hemb Hdt Hmax.
  destruct (erk_odeint_finished F false (fun _ => []) (fun _ _ _ => eq_refl) _ _ _ _ _ _ _ _ _ _ _ Hrun) as (Ha & sc & a & b & Hm & Hg & Hd & _ & _ & atts & O & A & _ & _ & En).
  assert (Ef : eff_opts opts sc = opts).
  { unfold eff_opts. rewrite Ead. destruct (sc_orders m sc Hm Hg) as (p & p2 & Hin & _ & Ef). pose proof (ef_order2 _ _ _ _ _ Ef) as Ho. pose proof (ef_pos _ _ _ _ _ Ef) as Hps.
    destruct (sc_b2 sc) eqn:Eb; [|reflexivity]. exfalso. unfold explicit_orders in Hin. simpl In in Hin.
    destruct Hin as [Hi|[Hi|[Hi|[Hi|[Hi|[Hi|[]]]]]]]; injection Hi as Hi1 Hi2 Hi3; rewrite <- Hi3 in Ho; rewrite <- Hi1 in Hemb; try (vm_compute in Hemb; intuition discriminate);
      destruct Ho as (Ho & _); try rewrite Eb in Ho; simpl in Ho; lia. }
  rewrite Ef in A. rewrite (ok_t _ _ _ _ _ O). apply attempts_steps; [exact (ao_chain _ _ _ _ _ _ A)|].
  intros x Hx. apply In_nth_error in Hx. destruct Hx as [k Hk]. destruct k as [|k].
  - rewrite (att_dt _ _ _ _ _ _ A 0 x Hk). unfold dt_after. cbn [fold_left firstn]. rewrite !clip_R. eapply Rle_trans; [apply Rmin_l|]. eapply Rle_trans; [apply Rmin_l|]. exact Hdt.
  - destruct (nth_error atts k) as [y|] eqn:Ek; [|apply nth_error_None in Ek; assert (S k < length atts)%nat by (apply nth_error_Some; congruence); lia].
    destruct (steps_bounds t0 t1 opts _ dt atts A (mo_pos a b) (clip_pos _ _ _ Hp Ha) Ead k y x Ek Hk) as (_ & B & _). specialize (B (proj1 Hmax)). lra.
Qed.

Theorem erk_adaptive_converges m p p2 P n f phi t0 t1 r : In (m, p, p2) explicit_orders -> (1 <= P <= p)%nat -> t0 < t1 -> 0 < r -> solves n f t0 t1 phi -> smooth_near P n r t0 t1 f phi ->
  exists h0 C, 0 < h0 /\ 0 <= C /\
  forall (HE : Env R) (HL : LinAlg R) (HX : ExactProducts HL) (St : Type) (F : functor R St), computes F f ->
  forall fuel opts oo dt w w' sol H, erk_odeint fuel F t0 t1 (phi t0) opts oo m dt w = (w', Ok sol) ->
  eo_adaptive opts = true -> In m explicit_embedded -> 0 < dt <= H -> 0 < eo_max_dt opts <= H -> H <= h0 ->
  (forall k q, (k < length (eo_t_vals sol))%nat -> (q < n)%nat ->
    Rabs (ventry (nth k (eo_y_vals sol) []) q - ventry (phi (nth k (eo_t_vals sol) 0)) q) <= C * H ^ P).
Proof.
  intros Hin HPp Ht Hr Hs Hsm. destruct (erk_converges m p p2 P n f phi t0 t1 r Hin HPp Ht Hr Hs Hsm) as (h0 & C & Hh0 & HC & K).
  exists h0, C. split; [exact Hh0|]. split; [exact HC|]. intros HE HL HX St F HF fuel opts oo dt w w' sol H Hrun Ead Hemb Hdt Hmax HH.
  apply (K HE HL HX St F HF fuel opts oo dt w w' sol H (or_intror (proj1 Hdt)) Hrun); [|lra].
  apply (erk_limited_steps F fuel t0 t1 (phi t0) opts oo m dt w w' sol H); try assumption; [right; split; lra|lra].
Qed.
