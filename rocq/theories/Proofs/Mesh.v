(** The recorded times determine the recorded states of an explicit run; interrupting and resuming (C119, C120). *)
From Coq Require Import Reals Lra.
From Verif Require Import Model.Base Model.Scalar Model.LinAlg Model.Enums Model.Options Model.Coeffs Model.ErkCoeffs Model.Erk.
From Verif Require Import Spec.Sums Spec.Observe Spec.RkSpec Spec.ErkSpec Spec.Methods Spec.Prefix.
From Verif Require Import Proofs.SumsProofs Proofs.TablesFinal Proofs.ErkProofs Proofs.ErkRun Proofs.ErkGeneric Proofs.ErkReal Proofs.ErkExact Proofs.ErkTotal Proofs.ErkFinal.
Local Open Scope R_scope.

Lemma rk_step_unique n s a b c f t h y y1 y2 K1 K2 : (forall i j, (i < s)%nat -> (i <= j < s)%nat -> a i j = 0) ->
  rk_step n s a b c f t h y y1 K1 -> rk_step n s a b c f t h y y2 K2 -> y1 = y2 /\ K1 = K2.
Proof.
  intros Ha (L1 & S1 & ->) (L2 & S2 & ->).
  assert (HK : forall i, (i < s)%nat -> nth i K1 [] = nth i K2 []).
  { induction i as [i IH] using lt_wf_ind. intros Hi. destruct (S1 i Hi) as (_ & ->), (S2 i Hi) as (_ & ->). f_equal. apply vtab_ext. intros q _. f_equal. f_equal.
    apply Rsum_ext. intros j Hj. destruct (le_lt_dec i j) as [H|H]; [rewrite Ha by lia; ring|]. rewrite IH by lia. reflexivity. }
  split.
  - apply vtab_ext. intros q _. f_equal. f_equal. apply Rsum_ext. intros j Hj. rewrite HK by exact Hj. reflexivity.
  - apply (nth_ext _ _ [] []); [congruence|]. intros i Hi. apply HK. lia.
Qed.

Lemma counted_method m s : In (m, s) explicit_stage_counts -> In m explicit_methods.
Proof. intros H. apply (in_map fst) in H. revert H. vm_compute. tauto. Qed.

Section Mesh.
  Context {E1 E2 : Env R} {L1 L2 : LinAlg R} {X1 : ExactProducts L1} {X2 : ExactProducts L2} {St1 St2 : Type}.
  Variables (F1 : functor R St1) (F2 : functor R St2) (f : R -> list R -> list R).
  Hypotheses (H1 : computes F1 f) (H2 : computes F2 f).
  Variables (m : Z).
  Lemma mesh fuel1 s0 s1 y0 opts1 oo1 dt1 w1 w1' a fuel2 r0 r1 z0 opts2 oo2 dt2 w2 w2' b :
    @erk_odeint R RScalar L1 E1 St1 fuel1 F1 s0 s1 y0 opts1 oo1 m dt1 w1 = (w1', Ok a) ->
    @erk_odeint R RScalar L2 E2 St2 fuel2 F2 r0 r1 z0 opts2 oo2 m dt2 w2 = (w2', Ok b) ->
    forall i j k, (i + k < length (eo_t_vals a))%nat -> (j + k < length (eo_t_vals b))%nat ->
    nth i (eo_y_vals a) [] = nth j (eo_y_vals b) [] -> (forall l, (l <= k)%nat -> nth (i + l) (eo_t_vals a) 0 = nth (j + l) (eo_t_vals b) 0) ->
    forall l, (l <= k)%nat -> nth (i + l) (eo_y_vals a) [] = nth (j + l) (eo_y_vals b) [] /\ ((1 <= l)%nat -> nth (i + l) (eo_stages a) [] = nth (j + l) (eo_stages b) []).
  Proof.
    intros R1 R2 i j k Hi Hj Hy Ht.
    destruct (erk_is_rk F1 f H1 _ _ _ _ _ _ _ _ _ _ _ R1) as (sc & G1 & K1). destruct (erk_is_rk F2 f H2 _ _ _ _ _ _ _ _ _ _ _ R2) as (sc' & G2 & K2).
    rewrite G1 in G2. injection G2 as <-.
    pose proof (@erk_aligned R RScalar L1 E1 St1 F1 _ _ _ _ _ _ _ _ _ _ _ R1) as A1. cbv zeta in A1. destruct A1 as (_ & Ly1 & _ & _ & _ & _ & _ & D1 & _ & st & Hst & _).
    pose proof (@erk_aligned R RScalar L2 E2 St2 F2 _ _ _ _ _ _ _ _ _ _ _ R2) as A2. cbv zeta in A2. destruct A2 as (_ & Ly2 & _ & _ & _ & _ & _ & D2 & _).
    pose proof (counted_method m st Hst) as Hm.
    assert (Hn : length y0 = length z0).
    { rewrite Forall_forall in D1, D2. rewrite <- (D1 (nth i (eo_y_vals a) [])), <- (D2 (nth j (eo_y_vals b) [])), Hy; [reflexivity| |]; apply nth_In; lia. }
    assert (Hlow : forall p q, (p < length (sc_b sc))%nat -> (p <= q < length (sc_b sc))%nat -> mentry (sc_A sc) p q = 0).
    { intros p q Hp Hq. destruct (erk_rows m sc Hm G1) as (_ & Hr). apply (proj2 (Hr p Hp) q Hq). }
    assert (Hstep : forall l, (l < k)%nat -> nth (i + l) (eo_y_vals a) [] = nth (j + l) (eo_y_vals b) [] ->
      nth (i + S l) (eo_y_vals a) [] = nth (j + S l) (eo_y_vals b) [] /\ nth (i + S l) (eo_stages a) [] = nth (j + S l) (eo_stages b) []).
    { intros l Hl El. destruct (K1 (i + l)%nat ltac:(lia)) as (Ka & Sa & Pa). destruct (K2 (j + l)%nat ltac:(lia)) as (Kb & Sb & Pb).
      rewrite <- !plus_n_Sm in * . rewrite El in Pa. pose proof (Ht l ltac:(lia)) as T1. pose proof (Ht (S l) ltac:(lia)) as T2. rewrite <- !plus_n_Sm in T2. rewrite T1, T2, Hn in Pa.
      destruct (rk_step_unique _ _ _ _ _ _ _ _ _ _ _ _ _ Hlow Pa Pb) as (-> & ->). split; [reflexivity|]. rewrite Sa, Sb. reflexivity. }
    induction l as [|l IH]; intros Hl.
    - rewrite !Nat.add_0_r. split; [exact Hy|lia].
    - destruct (IH ltac:(lia)) as [IH1 _]. destruct (Hstep l ltac:(lia) IH1) as (K & K'). auto.
  Qed.
End Mesh.

Lemma last_at {A} (l : list A) d d' : l <> [] -> nth (length l - 1) l d = last l d'.
Proof.
  intros H. destruct (exists_last H) as (u & x & ->). rewrite last_last, app_length. simpl. rewrite app_nth2 by lia. replace (length u + 1 - 1 - length u)%nat with O by lia. reflexivity.
Qed.

(** the number of steps of a run on the grid *)
Lemma grid_count N M dt len : 0 < dt -> (1 <= M)%nat -> len = INR N * dt -> INR (M - 1) * dt < len <= INR M * dt -> M = N.
Proof.
  intros Hdt HM -> [Ha Hb]. apply Rmult_lt_reg_r in Ha; [|exact Hdt]. apply Rmult_le_reg_r in Hb; [|exact Hdt]. apply INR_lt in Ha. apply INR_le in Hb. lia.
Qed.

Section Restart.
  Context {E1 E2 E3 : Env R} {L1 L2 L3 : LinAlg R} {X1 : ExactProducts L1} {X2 : ExactProducts L2} {X3 : ExactProducts L3} {S1 S2 S3 : Type}.
  Variables (F1 : functor R S1) (F2 : functor R S2) (F3 : functor R S3) (f : R -> list R -> list R).
  Hypotheses (H1 : computes F1 f) (H2 : computes F2 f) (H3 : computes F3 f).
  Variables (m : Z) (dt t0 t1 t2 : R) (N : nat) (o1 o2 o3 : erk_options R).
  Hypotheses (Hm : In m explicit_methods) (Hdt : 0 < dt) (Ht1 : t1 = t0 + INR N * dt) (HN : (1 <= N)%nat) (Ht2 : t1 < t2).
  Hypothesis Hfix : (eo_adaptive o1 = false /\ eo_adaptive o2 = false /\ eo_adaptive o3 = false) \/ ~ In m explicit_embedded.
  Lemma restart y0 f1 f2 f3 oo1 oo2 oo3 w1 w2 w3 w1' w2' w3' a b c :
    @erk_odeint R RScalar L1 E1 S1 f1 F1 t0 t1 y0 o1 oo1 m dt w1 = (w1', Ok a) -> eo_status a = SUCCESS ->
    @erk_odeint R RScalar L2 E2 S2 f2 F2 t1 t2 (last (eo_y_vals a) y0) o2 oo2 m dt w2 = (w2', Ok b) -> eo_status b = SUCCESS ->
    @erk_odeint R RScalar L3 E3 S3 f3 F3 t0 t2 y0 o3 oo3 m dt w3 = (w3', Ok c) -> eo_status c = SUCCESS ->
    eo_t_vals c = eo_t_vals a ++ tl (eo_t_vals b) /\ eo_y_vals c = eo_y_vals a ++ tl (eo_y_vals b) /\ tl (eo_stages c) = tl (eo_stages a) ++ tl (eo_stages b).
  Proof.
    intros Ra Sa Rb Sb Rc Sc. assert (HNp : 0 < INR N) by (apply lt_0_INR; lia). pose proof (Rmult_lt_0_compat _ _ HNp Hdt) as HNd.
    destruct (@erk_fixed_grid E1 L1 S1 F1 t0 t1 y0 o1 oo1 m dt Hm ltac:(lra) Hdt ltac:(tauto) _ _ _ _ Ra) as (_ & Ga). destruct (Ga Sa) as (Na & Pa & Ba & Ta).
    destruct (@erk_fixed_grid E2 L2 S2 F2 t1 t2 (last (eo_y_vals a) y0) o2 oo2 m dt Hm ltac:(lra) Hdt ltac:(tauto) _ _ _ _ Rb) as (_ & Gb). destruct (Gb Sb) as (Nb & Pb & Bb & Tb).
    destruct (@erk_fixed_grid E3 L3 S3 F3 t0 t2 y0 o3 oo3 m dt Hm ltac:(lra) Hdt ltac:(tauto) _ _ _ _ Rc) as (_ & Gc). destruct (Gc Sc) as (Nc & Pc & Bc & Tc).
    assert (ENa : Na = N) by (apply (grid_count N Na dt (t1 - t0)); [exact Hdt|exact Pa|lra|exact Ba]). subst Na.
    assert (ENc : Nc = (N + Nb)%nat).
    { assert (K1 : INR (N + (Nb - 1)) < INR Nc). { apply (Rmult_lt_reg_r dt); [exact Hdt|]. rewrite plus_INR. lra. }
      assert (K2 : INR (Nc - 1) < INR (N + Nb)). { apply (Rmult_lt_reg_r dt); [exact Hdt|]. rewrite plus_INR. lra. }
      apply INR_lt in K1. apply INR_lt in K2. lia. }
    subst Nc.
    pose proof (@erk_aligned R RScalar L1 E1 S1 F1 _ _ _ _ _ _ _ _ _ _ _ Ra) as A1. cbv zeta in A1. destruct A1 as (_ & Ly1 & Ls1 & _ & _ & _ & Y1 & _).
    pose proof (@erk_aligned R RScalar L2 E2 S2 F2 _ _ _ _ _ _ _ _ _ _ _ Rb) as A2. cbv zeta in A2. destruct A2 as (_ & Ly2 & Ls2 & _ & _ & _ & Y2 & _).
    pose proof (@erk_aligned R RScalar L3 E3 S3 F3 _ _ _ _ _ _ _ _ _ _ _ Rc) as A3. cbv zeta in A3. destruct A3 as (_ & Ly3 & Ls3 & _ & _ & _ & Y3 & _).
    assert (Lta : length (eo_t_vals a) = S N) by (rewrite Ta, app_length, map_length, seq_length; simpl; lia).
    assert (Ltb : length (eo_t_vals b) = S Nb) by (rewrite Tb, app_length, map_length, seq_length; simpl; lia).
    assert (Ltc : length (eo_t_vals c) = S (N + Nb)) by (rewrite Tc, app_length, map_length, seq_length; simpl; lia).
    assert (Na : forall l, (l <= N)%nat -> nth l (eo_t_vals a) 0 = t0 + INR l * dt).
    { intros l Hl. rewrite Ta. destruct (Nat.eq_dec l N) as [->|Hne].
      - rewrite app_nth2; rewrite map_length, seq_length; [|lia]. rewrite Nat.sub_diag. simpl. lra.
      - rewrite app_nth1 by (rewrite map_length, seq_length; lia). rewrite (nth_indep _ 0 (t0 + INR 0 * dt)) by (rewrite map_length, seq_length; lia).
        rewrite (map_nth (fun k => t0 + INR k * dt)), seq_nth by lia. reflexivity. }
    assert (Nb' : forall l, (l < Nb)%nat -> nth l (eo_t_vals b) 0 = t1 + INR l * dt).
    { intros l Hl. rewrite Tb. rewrite app_nth1 by (rewrite map_length, seq_length; lia). rewrite (nth_indep _ 0 (t1 + INR 0 * dt)) by (rewrite map_length, seq_length; lia).
      rewrite (map_nth (fun k => t1 + INR k * dt)), seq_nth by lia. reflexivity. }
    assert (Nc' : forall l, (l < N + Nb)%nat -> nth l (eo_t_vals c) 0 = t0 + INR l * dt).
    { intros l Hl. rewrite Tc. rewrite app_nth1 by (rewrite map_length, seq_length; lia). rewrite (nth_indep _ 0 (t0 + INR 0 * dt)) by (rewrite map_length, seq_length; lia).
      rewrite (map_nth (fun k => t0 + INR k * dt)), seq_nth by lia. reflexivity. }
    assert (Eb : nth Nb (eo_t_vals b) 0 = t2) by (rewrite Tb, app_nth2; rewrite map_length, seq_length; [rewrite Nat.sub_diag; reflexivity|lia]).
    assert (Ec : nth (N + Nb) (eo_t_vals c) 0 = t2) by (rewrite Tc, app_nth2; rewrite map_length, seq_length; [rewrite Nat.sub_diag; reflexivity|lia]).
    assert (Y0 : forall (l : list (list R)) y, nth_error l 0 = Some y -> nth 0 l [] = y) by (intros l y; apply nth_error_nth).
    assert (T1 : forall l, (l <= N)%nat -> nth (0 + l) (eo_t_vals a) 0 = nth (0 + l) (eo_t_vals c) 0) by (intros l Hl; simpl; rewrite Na, Nc' by lia; reflexivity).
    assert (M1 := mesh F1 F3 f H1 H3 m _ _ _ _ _ _ _ _ _ a _ _ _ _ _ _ _ _ _ c Ra Rc 0 0 N ltac:(lia) ltac:(lia) ltac:(rewrite (Y0 _ _ Y1), (Y0 _ _ Y3); reflexivity) T1).
    assert (EL : last (eo_y_vals a) y0 = nth N (eo_y_vals c) []).
    { pose proof (proj1 (M1 N ltac:(lia))) as KN. cbn [Nat.add] in KN. rewrite <- KN. rewrite <- (last_at (eo_y_vals a) [] y0) by (intros Hn; rewrite Hn in Ly1; simpl in Ly1; lia). f_equal. lia. }
    assert (T2 : forall l, (l <= Nb)%nat -> nth (0 + l) (eo_t_vals b) 0 = nth (N + l) (eo_t_vals c) 0).
    { intros l Hl. simpl. destruct (Nat.eq_dec l Nb) as [->|Hne]; [rewrite Eb, Ec; reflexivity|]. rewrite Nb', Nc', plus_INR by lia. rewrite Ht1. ring. }
    assert (M2 := mesh F2 F3 f H2 H3 m _ _ _ _ _ _ _ _ _ b _ _ _ _ _ _ _ _ _ c Rb Rc 0 N Nb ltac:(lia) ltac:(lia) ltac:(rewrite (Y0 _ _ Y2); exact EL) T2).
    assert (Glue : forall {A} (d : A) (u v x : list A), length u = S N -> length v = S Nb -> length x = S (N + Nb) ->
      (forall l, (l <= N)%nat -> nth l u d = nth l x d) -> (forall l, (1 <= l <= Nb)%nat -> nth l v d = nth (N + l) x d) -> x = u ++ tl v).
    { intros A d u v x Lu Lv Lx Hu Hv. destruct v as [|v0 v]; [discriminate|]. cbn [tl length] in * . apply (nth_ext _ _ d d); [rewrite app_length; lia|]. intros l Hl.
      destruct (le_lt_dec l N) as [Hc|Hc]; [rewrite app_nth1 by lia; symmetry; apply Hu, Hc|]. rewrite app_nth2 by lia. rewrite Lu.
      specialize (Hv (l - N)%nat ltac:(lia)). replace (N + (l - N))%nat with l in Hv by lia. rewrite <- Hv. replace (l - N)%nat with (S (l - S N)) by lia. reflexivity. }
    split; [|split].
    - apply (Glue R 0); [exact Lta|exact Ltb|exact Ltc|intros l Hl; apply (T1 l Hl)|intros l Hl; apply (T2 l); lia].
    - apply (Glue _ []); [lia|lia|lia|intros l Hl; apply (M1 l Hl)|intros l Hl; apply (M2 l); lia].
    - destruct (eo_stages a) as [|a0 sa] eqn:Esa; [simpl in Ls1; lia|]. destruct (eo_stages c) as [|c0 sc] eqn:Esc; [simpl in Ls3; lia|]. cbn [tl].
      assert (Gl : c0 :: sc = (c0 :: sa) ++ tl (eo_stages b)).
      { apply (Glue _ []); [simpl in *; lia|lia|simpl in *; lia| |intros l Hl; apply (M2 l); lia].
        intros l Hl. destruct l as [|l]; [reflexivity|]. apply (M1 (S l)); lia. }
      injection Gl as ->. reflexivity.
  Qed.
End Restart.

(** a longer interval: all but the last point of the shorter run are shared *)
Section Longer.
  Context {E1 E3 : Env R} {L1 L3 : LinAlg R} {X1 : ExactProducts L1} {X3 : ExactProducts L3} {S1 S3 : Type}.
  Variables (F1 : functor R S1) (F3 : functor R S3) (f : R -> list R -> list R).
  Hypotheses (H1 : computes F1 f) (H3 : computes F3 f).
  Variables (m : Z) (dt t0 t1 t2 : R) (o1 o3 : erk_options R).
  Hypotheses (Hm : In m explicit_methods) (Hdt : 0 < dt) (Ht1 : t0 < t1) (Ht2 : t1 <= t2).
  Hypothesis Hfix : (eo_adaptive o1 = false /\ eo_adaptive o3 = false) \/ ~ In m explicit_embedded.
  Lemma longer y0 f1 f3 oo1 oo3 w1 w3 w1' w3' a c :
    @erk_odeint R RScalar L1 E1 S1 f1 F1 t0 t1 y0 o1 oo1 m dt w1 = (w1', Ok a) -> eo_status a = SUCCESS ->
    @erk_odeint R RScalar L3 E3 S3 f3 F3 t0 t2 y0 o3 oo3 m dt w3 = (w3', Ok c) -> eo_status c = SUCCESS ->
    extends (removelast (eo_t_vals a)) (eo_t_vals c) /\ extends (removelast (eo_y_vals a)) (eo_y_vals c).
  Proof.
    intros Ra Sa Rc Sc.
    destruct (@erk_fixed_grid E1 L1 S1 F1 t0 t1 y0 o1 oo1 m dt Hm ltac:(lra) Hdt ltac:(tauto) _ _ _ _ Ra) as (_ & Ga). destruct (Ga Sa) as (Na & Pa & Ba & Ta).
    destruct (@erk_fixed_grid E3 L3 S3 F3 t0 t2 y0 o3 oo3 m dt Hm ltac:(lra) Hdt ltac:(tauto) _ _ _ _ Rc) as (_ & Gc). destruct (Gc Sc) as (Nc & Pc & Bc & Tc).
    assert (HN : (Na <= Nc)%nat).
    { assert (K : INR (Na - 1) < INR Nc) by (apply (Rmult_lt_reg_r dt); [exact Hdt|lra]). apply INR_lt in K. lia. }
    assert (Hg : forall t N e l, (l < N)%nat -> nth l (map (fun k => t + INR k * dt) (seq 0 N) ++ [e]) 0 = t + INR l * dt).
    { intros t N e l Hl. rewrite app_nth1 by (rewrite map_length, seq_length; lia). rewrite (nth_indep _ 0 (t + INR 0 * dt)) by (rewrite map_length, seq_length; lia).
      rewrite (map_nth (fun k => t + INR k * dt)), seq_nth by lia. reflexivity. }
    pose proof (@erk_aligned R RScalar L1 E1 S1 F1 _ _ _ _ _ _ _ _ _ _ _ Ra) as A1. cbv zeta in A1. destruct A1 as (_ & Ly1 & _ & _ & _ & _ & Y1 & _).
    pose proof (@erk_aligned R RScalar L3 E3 S3 F3 _ _ _ _ _ _ _ _ _ _ _ Rc) as A3. cbv zeta in A3. destruct A3 as (_ & Ly3 & _ & _ & _ & _ & Y3 & _).
    assert (Lta : length (eo_t_vals a) = S Na) by (rewrite Ta, app_length, map_length, seq_length; simpl; lia).
    assert (Ltc : length (eo_t_vals c) = S Nc) by (rewrite Tc, app_length, map_length, seq_length; simpl; lia).
    assert (T1 : forall l, (l <= Na - 1)%nat -> nth (0 + l) (eo_t_vals a) 0 = nth (0 + l) (eo_t_vals c) 0) by (intros l Hl; rewrite Ta, Tc, !Hg by lia; reflexivity).
    assert (M1 := mesh F1 F3 f H1 H3 m _ _ _ _ _ _ _ _ _ a _ _ _ _ _ _ _ _ _ c Ra Rc 0 0 (Na - 1) ltac:(lia) ltac:(lia)
      ltac:(rewrite (nth_error_nth _ _ _ Y1), (nth_error_nth _ _ _ Y3); reflexivity) T1).
    assert (Ext : forall {A} (d : A) (u x : list A), length u = S Na -> (Na <= length x)%nat -> (forall l, (l <= Na - 1)%nat -> nth l u d = nth l x d) -> extends (removelast u) x).
    { intros A d u x Lu Lx Hu. exists (skipn Na x). rewrite <- (firstn_skipn Na x) at 1. f_equal. rewrite removelast_firstn_len, Lu. cbn [pred].
      apply (nth_ext _ _ d d); [rewrite !firstn_length; lia|]. intros l Hl. rewrite firstn_length in Hl.
      rewrite <- (firstn_skipn Na x), <- (firstn_skipn Na u) in Hu. specialize (Hu l ltac:(lia)). rewrite !app_nth1 in Hu by (rewrite firstn_length; lia). congruence. }
    split.
    - apply (Ext R 0); [exact Lta|lia|]. intros l Hl. apply (T1 l Hl).
    - apply (Ext _ []); [lia|lia|]. intros l Hl. apply (M1 l Hl).
  Qed.
End Longer.
