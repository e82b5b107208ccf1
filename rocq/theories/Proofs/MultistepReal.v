(** Steps of adams_bashforth and bdf in exact arithmetic. *)
From Coq Require Import Reals Lra.
From Verif Require Import Model.Base Model.Scalar Model.LinAlg Model.CyclicBuffer Model.Newton Model.Multistep.
From Verif Require Import Spec.Sums Spec.RkSpec Spec.Observe Spec.ErkSpec Spec.NewtonSpec Spec.IrkSpec Spec.MultistepSpec.
From Verif Require Import Proofs.LoopProofs Proofs.SumsProofs Proofs.CyclicBufferProofs Proofs.RVec Proofs.NewtonProofs Proofs.NewtonReal Proofs.NewtonLog Proofs.NewtonFinal Proofs.IrkSteps Proofs.MultistepProofs.
Local Open Scope R_scope.

(** ** Coefficients *)
Lemma Rlit_tenth a : Rlit (10 * a) (-1) = IZR a.
Proof. unfold Rlit. rewrite mult_IZR. change (IZR (Z.pow_pos 10 1)) with 10. lra. Qed.
Lemma frac_R a b : frac a b = IZR a / IZR b.
Proof. unfold frac. cbn [sdiv slit RScalar]. rewrite !Rlit_tenth. reflexivity. Qed.
Lemma ifrac_R a b : ifrac a b = IZR a / IZR b.
Proof. unfold ifrac, sZ. cbn [sdiv slit RScalar]. rewrite Rlit_tenth. reflexivity. Qed.
Lemma lit_tenths a : slit a (-1) = IZR a / 10.
Proof. reflexivity. Qed.

Lemma ab_coeffs_R : ab_coeffs = ab_table.
Proof.
  unfold ab_coeffs, ab_table. rewrite !frac_R, !lit_tenths. cbn [sopp RScalar].
  repeat match goal with |- _ :: _ = _ :: _ => f_equal end; try reflexivity; lra.
Qed.
Lemma bdf_coeffs_R : bdf_coeffs = bdf_table.
Proof.
  unfold bdf_coeffs, bdf_table. rewrite !frac_R, !ifrac_R, !lit_tenths. cbn [sopp RScalar].
  repeat match goal with |- _ :: _ = _ :: _ => f_equal end; try reflexivity; lra.
Qed.
Lemma bdf_beta_R k : nth (k - 1) bdf_rhs_weight (sZ 0) = bdf_beta k.
Proof.
  unfold bdf_beta. f_equal. unfold bdf_rhs_weight. rewrite !ifrac_R, lit_tenths.
  repeat match goal with |- _ :: _ = _ :: _ => f_equal end; try reflexivity; lra.
Qed.
Lemma ab_row k : (1 <= k <= 5)%nat -> length (nth (k - 1) ab_table []) = k.
Proof. intros Hk. destruct k as [|[|[|[|[|[|k]]]]]]; try lia; reflexivity. Qed.
Lemma bdf_row k : (1 <= k <= 6)%nat -> length (nth (k - 1) bdf_table []) = k.
Proof. intros Hk. destruct k as [|[|[|[|[|[|[|k]]]]]]]; try lia; reflexivity. Qed.

(** ** Sums along the history *)
Lemma nth_rev_list (l : list (list R)) j : (j < length l)%nat -> nth j (rev l) [] = nth (length l - 1 - j) l [].
Proof. intros Hj. rewrite rev_nth by exact Hj. f_equal. lia. Qed.
Lemma last_nth (l : list (list R)) : last l [] = nth (length l - 1) l [].
Proof.
  destruct l as [|a l] using rev_ind; [reflexivity|]. rewrite last_last, app_length, app_nth2; simpl; [|lia].
  replace (length l + 1 - 1 - length l)%nat with 0%nat by lia. reflexivity.
Qed.
Lemma Rsum_cons m f : Rsum (S m) f = f 0%nat + Rsum m (fun j => f (S j)).
Proof. induction m as [|m IH]; [simpl; ring|]. change (Rsum (S (S m)) f) with (Rsum (S m) f + f (S m)). rewrite IH. simpl. ring. Qed.

Section Steps.
  Context {LA : LinAlg R} {HE : Env R} {St : Type}.
  Variables (F : functor R St) (f : R -> list R -> list R).
  Hypothesis Hf : computes F f.

  Lemma history_get p (b : cbuf (list R)) hs j v : inv [] p b hs -> (j < length hs)%nat -> (Z.of_nat j < p)%Z ->
    cb_get ndebug b (Z.of_nat j) = Ok v -> v = nth j hs [].
  Proof.
    intros Hi Hj Hp Hg. assert (Hs : (0 <= Z.of_nat j < size_ b)%Z) by (destruct Hi as (_ & _ & Hs & _); lia).
    destruct (inv_get [] p b hs ndebug (Z.of_nat j) Hi Hs) as (x & Hx & Hg'). rewrite Hg in Hg'. injection Hg' as ->.
    rewrite Nat2Z.id in Hx. symmetry. apply nth_error_nth, Hx.
  Qed.

  Lemma ab_term_R p b hs t c j (w w' : world R St) v : inv [] p b hs -> (j < length hs)%nat -> (Z.of_nat j < p)%Z ->
    ab_term F t b c (Z.of_nat j) w = (w', Ok v) -> v = vscale c (f t (nth j hs [])).
  Proof.
    intros Hi Hj Hp Hr. unfold ab_term in Hr. apply bind_ok in Hr. destruct Hr as (w1 & h & Hg & Hr). apply lift_ok in Hg. destruct Hg as [-> Hg].
    apply (history_get p b hs j h Hi Hj Hp) in Hg. subst h.
    apply bind_ok in Hr. destruct Hr as (w2 & u & Hu & Hr). apply in_world_ok in Hu. destruct Hu as (s & Hu & ->).
    apply ret_ok in Hr. destruct Hr as [_ <-]. f_equal. apply (Hf t _ (w_st w)). rewrite Hu. reflexivity.
  Qed.

  Lemma ab_tail_R p b hs t cs : forall a acc (w w' : world R St) v, inv [] p b hs -> (a + length cs <= length hs)%nat -> (Z.of_nat (a + length cs) <= p)%Z ->
    foldM (fun q acc => bind (ab_term F t b (snd q) (Z.of_nat (fst q))) (fun v => lift (vadd acc v))) (combine (seq a (length cs)) cs) acc w = (w', Ok v) ->
    length v = length acc /\ forall q, ventry v q = ventry acc q + Rsum (length cs) (fun j => nth j cs 0 * ventry (f t (nth (a + j) hs [])) q).
  Proof.
    induction cs as [|c cs IH]; intros a acc w w' v Hi H1 H2 Hr.
    - simpl in Hr. apply ret_ok in Hr. destruct Hr as [_ <-]. split; [reflexivity|]. intros q. simpl. ring.
    - cbn [length seq combine foldM] in Hr. apply bind_ok in Hr. destruct Hr as (w1 & acc1 & Hb & Hr).
      apply bind_ok in Hb. destruct Hb as (w2 & u & Hu & Hb). cbn [fst snd] in Hu, Hb. cbn [length] in H1, H2.
      apply (ab_term_R p b hs) in Hu; [|assumption|lia|lia]. apply lift_ok in Hb. destruct Hb as [-> Hb]. apply vadd_R in Hb. destruct Hb as (B1 & B2 & B3).
      apply IH in Hr; [|assumption|lia|lia]. destruct Hr as [R1 R2]. split; [congruence|]. intros q. rewrite R2, B3. subst u. rewrite ventry_vscale.
      cbn [length]. rewrite Rsum_cons. cbn [nth]. rewrite Nat.add_0_r.
      rewrite (Rsum_ext (length cs) (fun j => nth j cs 0 * ventry (f t (nth (a + S j) hs [])) q) (fun j => nth j cs 0 * ventry (f t (nth (S a + j) hs [])) q)); [ring|].
      intros j Hj. f_equal. f_equal. f_equal. f_equal. lia.
  Qed.

  Lemma ab_sum_R p b hs t cs (w w' : world R St) v : inv [] p b hs -> cs <> [] -> (length cs <= length hs)%nat -> (Z.of_nat (length cs) <= p)%Z ->
    ab_sum F t b cs w = (w', Ok v) ->
    forall q, ventry v q = Rsum (length cs) (fun j => nth j cs 0 * ventry (f t (nth j hs [])) q).
  Proof.
    intros Hi Hne H1 H2 Hr. destruct cs as [|c cs]; [congruence|]. unfold ab_sum in Hr. cbn [length] in H1, H2.
    apply bind_ok in Hr. destruct Hr as (w1 & v0 & Hv & Hr). change 0%Z with (Z.of_nat 0) in Hv. apply (ab_term_R p b hs) in Hv; [|assumption|lia|lia].
    apply (ab_tail_R p b hs t cs) in Hr; [|assumption|lia|lia]. destruct Hr as [_ Hr]. intros q. rewrite Hr. cbn [length]. rewrite Rsum_cons. cbn [nth]. subst v0.
    rewrite ventry_vscale. reflexivity.
  Qed.

  (** an Adams-Bashforth step *)
  Lemma ab_step_R order b hs t h Y (w w' : world R St) y : (1 <= order <= 5)%Z -> inv [] order b hs -> (Z.to_nat order <= length hs)%nat ->
    adams_bashforth_step F order Y t h b w = (w', Ok y) ->
    length y = length Y /\
    forall q, ventry y q = ventry Y q + h * Rsum (Z.to_nat order) (fun j => ab_weight (Z.to_nat order) j * ventry (f t (nth j hs [])) q).
  Proof.
    intros Ho Hi Hl Hr. unfold adams_bashforth_step in Hr.
    destruct (Z.eqb_spec order 1) as [->|Hn1].
    - apply bind_ok in Hr. destruct Hr as (w1 & u & Hu & Hr). apply lift_ok in Hu. destruct Hu as [-> Hu].
      change 0%Z with (Z.of_nat 0) in Hu. change (Z.to_nat 1) with 1%nat in * . apply (history_get 1 b hs) in Hu; [|assumption|lia|lia]. subst u.
      apply bind_ok in Hr. destruct Hr as (w2 & v & Hv & Hr). apply in_world_ok in Hv. destruct Hv as (s & Hv & ->).
      apply lift_ok in Hr. destruct Hr as [-> Hr]. apply vadd_R in Hr. destruct Hr as (R1 & R2 & R3). split; [exact R2|]. intros q. rewrite R3, ventry_vscale.
      assert (Ev : v = f t (nth 0 hs [])) by (apply (Hf t _ (w_st w)); rewrite Hv; reflexivity). rewrite Ev.
      unfold ab_weight. cbn [Nat.sub ab_table nth Rsum]. ring.
    - replace ((2 <=? order)%Z && (order <=? 5)%Z) with true in Hr by (symmetry; apply andb_true_iff; lia).
      rewrite ab_coeffs_R in Hr. set (k := Z.to_nat order) in * .
      assert (Hk : (1 <= k <= 5)%nat) by (unfold k; lia). pose proof (ab_row k Hk) as Lr.
      apply bind_ok in Hr. destruct Hr as (w1 & v & Hv & Hr).
      assert (Hs : forall q, ventry v q = Rsum k (fun j => ab_weight k j * ventry (f t (nth j hs [])) q)).
      { intros q. pose proof (ab_sum_R order b hs t _ w w1 v Hi ltac:(intros E; rewrite E in Lr; simpl in Lr; lia) ltac:(rewrite Lr; exact Hl) ltac:(rewrite Lr; unfold k; lia) Hv q) as E.
        rewrite Lr in E. exact E. }
      apply lift_ok in Hr. destruct Hr as [-> Hr]. apply vadd_R in Hr. destruct Hr as (R1 & R2 & R3). split; [exact R2|]. intros q.
      rewrite R3, ventry_vscale, Hs. reflexivity.
  Qed.

  (** the sum of old values in a BDF step *)
  Lemma interp_tail_R p b hs cs : forall a acc v, inv [] p b hs -> (a + length cs <= length hs)%nat -> (Z.of_nat (a + length cs) <= p)%Z ->
    foldR (fun q acc => rbind (cb_get ndebug b (Z.of_nat (fst q))) (fun h => vadd acc (vscale (snd q) h))) (combine (seq a (length cs)) cs) acc = Ok v ->
    length v = length acc /\ (forall j, (j < length cs)%nat -> length (nth (a + j) hs []) = length acc) /\
    forall q, ventry v q = ventry acc q + Rsum (length cs) (fun j => nth j cs 0 * ventry (nth (a + j) hs []) q).
  Proof.
    induction cs as [|c cs IH]; intros a acc v Hi H1 H2 Hr.
    - simpl in Hr. injection Hr as <-. split; [reflexivity|]. split; [simpl; lia|]. intros q. simpl. ring.
    - cbn [length seq combine foldR] in Hr. apply rbind_ok in Hr. destruct Hr as (acc1 & Hb & Hr).
      apply rbind_ok in Hb. destruct Hb as (u & Hu & Hb). cbn [fst snd] in Hu, Hb. cbn [length] in H1, H2.
      apply (history_get p b hs) in Hu; [|assumption|lia|lia]. apply vadd_R in Hb. destruct Hb as (B1 & B2 & B3).
      apply IH in Hr; [|assumption|lia|lia]. destruct Hr as (R1 & R2 & R3). split; [congruence|]. split.
      + intros [|j] Hj; [rewrite Nat.add_0_r, <- Hu, <- B1, vscale_length; reflexivity|]. cbn [length] in Hj. rewrite <- B2, <- (R2 j) by lia. f_equal. f_equal. lia.
      + intros q. rewrite R3, B3, ventry_vscale. subst u. cbn [length]. rewrite Rsum_cons. cbn [nth]. rewrite Nat.add_0_r.
        rewrite (Rsum_ext (length cs) (fun j => nth j cs 0 * ventry (nth (a + S j) hs []) q) (fun j => nth j cs 0 * ventry (nth (S a + j) hs []) q)); [ring|].
        intros j Hj. f_equal. f_equal. f_equal. lia.
  Qed.
  Lemma interp_R p b hs n cs v : inv [] p b hs -> (length cs <= length hs)%nat -> (Z.of_nat (length cs) <= p)%Z ->
    interpolation_part n cs b = Ok v ->
    length v = n /\ (forall j, (j < length cs)%nat -> length (nth j hs []) = n) /\
    forall q, ventry v q = Rsum (length cs) (fun j => nth j cs 0 * ventry (nth j hs []) q).
  Proof.
    intros Hi H1 H2 Hr. unfold interpolation_part in Hr. apply (interp_tail_R p b hs) in Hr; [|assumption|lia|lia].
    rewrite vzeros_length in Hr. destruct Hr as (R1 & R2 & R3). split; [exact R1|]. split; [exact R2|]. intros q. rewrite R3, ventry_vzeros. simpl Nat.add. ring.
  Qed.
End Steps.

(** ** Newton's iteration without damping, limits or preconditioning *)
Section Trace.
  Context {LA : LinAlg R} {HP : ExactProducts LA} {HX : ExactSolve LA} {HE : Env R} {St : Type}.
  Variable G : nfunctor R St.

  Lemma newton_trace x opts stats quiet s s' x' st pr :
    o_precondition opts = false -> (0 < o_refresh_jac opts)%Z -> (0 <= o_maxit opts)%Z ->
    newton_iterate G x opts stats quiet s = (s', Ok (x', st, pr)) ->
    exists v0 V, v_x v0 = x /\ Forall (answered G) (v0 :: V) /\ Forall (answered_jac G) (v0 :: V) /\
      consecutive (fun v v' => invertible (v_J v) -> newton_step opts v v') (v0 :: V) /\
      (forall v, In v (removelast V) -> converged opts v = false) /\ (length V <= Z.to_nat (o_maxit opts))%nat /\
      (st_conv st = SUCCESS -> V <> [] /\ (length V < Z.to_nat (o_maxit opts))%nat /\ x' = v_x (last V v0) /\ converged opts (last V v0) = true) /\
      (st_conv st <> SUCCESS -> length V = Z.to_nat (o_maxit opts) \/ exists e, solve (v_J (last V v0)) (v_r (last V v0)) = Err (EThrow e)).
  Proof.
    intros Hpc Hrf Hmx Hr. apply (newton_logged G _ _ _ _ _ _ _ []) in Hr. destruct Hr as [l' Hr].
    rewrite dispatch in Hr. change (if (o_refresh_jac opts >? 0)%Z then 1%Z else 0%Z) with (flag opts) in Hr.
    unfold newton_iterate_impl in Hr. apply impl_run in Hr.
    destruct Hr as (v0 & V & Hx & Hd0 & (Ha1 & Ha2 & Ha3) & Hlog & Hmv & Hnc & Hlen & Hit & Hpr & Hout).
    cbn [fst snd] in * . rewrite flag_refresh in Ha3. rewrite Z.gtb_ltb in Ha3. rewrite (proj2 (Z.ltb_lt _ _) Hrf) in Ha3.
    assert (Hj : o_precondition opts = true -> junk = 0) by (rewrite Hpc; discriminate).
    exists v0, V. split; [exact Hx|]. split; [exact Ha1|]. split; [constructor; auto|].
    split. { refine (consecutive_mono _ _ _ _ Hmv). intros a b Hab. exact (moves_step x opts Hj a b Hab). }
    split; [exact Hnc|]. split; [exact Hlen|].
    destruct Hout as [(K1 & K2 & K3 & K4 & K5 & K6 & LUP & e & Hsh & He)|(K1 & K2 & K3 & K4 & K5)].
    - rewrite K2. split; [discriminate|]. intros _. right. unfold newton_direction in He. rewrite Hpc in He. destruct LUP as [[L U] P].
      rewrite flag_store in He. simpl negb in He. cbn match in He.
      destruct (solve (v_J (last V v0)) (v_r (last V v0))) as [d|e']; simpl in He; [discriminate|]. injection He as ->. eauto.
    - change (sfinite (st_res st)) with true in K3. cbn [negb] in K3.
      destruct (Z.eqb_spec (Z.of_nat (length V)) (o_maxit opts)) as [Em|Em].
      + rewrite K3. split; [discriminate|]. intros _. left. lia.
      + rewrite K3. split; [|intros E; congruence]. intros _. assert (Hlt : (length V < Z.to_nat (o_maxit opts))%nat) by lia.
        destruct (K5 Hlt) as (V' & v & -> & Hc). split; [intros E; destruct V'; discriminate|]. split; [exact Hlt|].
        split; [rewrite K4, K3; reflexivity|]. rewrite last_last. exact Hc.
  Qed.
End Trace.

(** ** BDF steps *)
Section Bdf.
  Context {LA : LinAlg R} {HP : ExactProducts LA} {HX : ExactSolve LA} {HE : Env R} {St : Type}.
  Variables (F : functor R St) (f : R -> list R -> list R).
  Hypothesis Hf : computes F f.
  Hypothesis HJ : jac_matrices F.
  Variables (order : Z) (n : nat) (h : R).
  Hypothesis Ho : (1 <= order <= 6)%Z.
  Let k := Z.to_nat order.
  (** the matrices of the linear systems are invertible *)
  Hypothesis Hinv : forall t y J, jac_answers F t y J -> nrows J = n -> ncols J = n -> invertible (bdf_matrix n (h * bdf_beta k) J).

  Lemma invertible_ext A B : nrows A = nrows B -> ncols A = ncols B -> nrows A = ncols A ->
    (forall i j, (i < nrows A)%nat -> (j < nrows A)%nat -> mentry A i j = mentry B i j) -> invertible B -> invertible A.
  Proof.
    intros E1 E2 E3 E4 (C & C1 & C2 & C3 & C4). exists C. split; [exact E3|]. split; [congruence|]. split; [congruence|].
    intros i j Hi Hj. rewrite E1 in Hi, Hj. destruct (C4 i j Hi Hj) as [D1 D2]. rewrite E1. split.
    - rewrite <- D1. apply Rsum_ext. intros q Hq. rewrite E4 by (rewrite E1; assumption). reflexivity.
    - rewrite <- D2. apply Rsum_ext. intros q Hq. rewrite E4 by (rewrite E1; assumption). reflexivity.
  Qed.

  Section OneStep.
    Variables (ys : list (list R)) (t : R) (b : cbuf (list R)) (part : list R).
    Hypothesis Hb : inv [] (order + 1) b (rev ys).
    Hypothesis Hl : (k <= length ys)%nat.
    Hypothesis Hn : length (last ys []) = n.
    Hypothesis Hpart : interpolation_part n (nth (k - 1) bdf_coeffs []) b = Ok part.
    Let G := newton_multistep_helper F n (h * bdf_beta k) (t + h) part.
    Let res (x : list R) (p : nat) : R := bdf_residual k f (t + h) h ys (length ys) x p.

    Lemma part_R : length part = n /\ (forall j, (j < k)%nat -> length (nth (length ys - 1 - j) ys []) = n) /\
      forall q, ventry part q = Rsum k (fun j => bdf_weight k j * ventry (yval ys (length ys - 1 - j)) q).
    Proof.
      rewrite bdf_coeffs_R in Hpart. assert (Hk : (1 <= k <= 6)%nat) by (unfold k; lia). pose proof (bdf_row k Hk) as Lr.
      destruct (interp_R (order + 1) b (rev ys) n _ part Hb ltac:(rewrite Lr, rev_length; exact Hl) ltac:(rewrite Lr; unfold k; lia) Hpart) as (P1 & P2 & P3).
      rewrite Lr in P2, P3. split; [exact P1|]. split.
      - intros j Hj. rewrite <- (P2 j Hj), nth_rev_list by lia. reflexivity.
      - intros q. rewrite P3. apply Rsum_ext. intros j Hj. rewrite nth_rev_list by lia. reflexivity.
    Qed.

    Lemma helper_fun x s s' r : n_fun G x s = (s', Ok r) -> length r = length x /\ length x = n /\ forall p, ventry r p = res x p.
    Proof.
      unfold G, newton_multistep_helper. cbn [n_fun]. intros Hr. destruct part_R as (P1 & P2 & P3).
      apply bind_ok in Hr. destruct Hr as (s1 & v & Hv & Hr). apply bind_ok in Hr. destruct Hr as (s2 & a & Ha & Hr).
      apply lift_ok in Ha. destruct Ha as [-> Ha]. apply lift_ok in Hr. destruct Hr as [-> Hr].
      apply vadd_R in Ha. destruct Ha as (A1 & A2 & A3). apply vsub_R in Hr. destruct Hr as (B1 & B2 & B3).
      split; [congruence|]. split; [congruence|]. intros p. rewrite B3, A3, ventry_vscale, P3.
      assert (Ev : v = f (t + h) x) by (apply (Hf (t + h) x s); rewrite Hv; reflexivity). rewrite Ev. unfold res, bdf_residual. reflexivity.
    Qed.
    Lemma helper_jac x s s' M : n_jac G x s = (s', Ok M) -> exists J, jac_answers F (t + h) x J /\ nrows J = n /\ ncols J = n /\ nrows M = n /\ ncols M = n /\
      forall i j, (i < n)%nat -> (j < n)%nat -> mentry M i j = delta i j - h * bdf_beta k * mentry J i j.
    Proof.
      unfold G, newton_multistep_helper. cbn [n_jac]. intros Hr. apply bind_ok in Hr. destruct Hr as (s1 & J & Hj & Hr). apply lift_ok in Hr. destruct Hr as [-> Hr].
      assert (Ha : jac_answers F (t + h) x J) by (do 2 eexists; exact Hj). apply eye_minus in Hr; [|exact (HJ _ _ _ Ha)]. destruct Hr as (R1 & R2 & R3 & R4 & R5).
      exists J. auto 10.
    Qed.
    Lemma helper_invertible x s s' M : n_jac G x s = (s', Ok M) -> invertible M.
    Proof.
      intros Hj. destruct (helper_jac _ _ _ _ Hj) as (J & J1 & J2 & J3 & J4 & J5 & J6).
      apply (invertible_ext M (bdf_matrix n (h * bdf_beta k) J)); [| | | |exact (Hinv _ _ _ J1 J2 J3)].
      - unfold bdf_matrix. rewrite mtab_nrows. exact J4.
      - unfold bdf_matrix. rewrite mtab_ncols. exact J5.
      - congruence.
      - rewrite J4. intros i j Hi Hj'. rewrite J6 by assumption. unfold bdf_matrix. rewrite mentry_vt by assumption. reflexivity.
    Qed.

    Lemma helper_step v v' : answered G v -> answered_jac G v -> newton_step bdf_newton_options v v' ->
      bdf_newton_step F n k f (t + h) h ys (length ys) (v_x v) (v_x v') (v_d v').
    Proof.
      intros (s & s' & H1) (u & u' & H2) (e & He & H3). destruct (helper_fun _ _ _ _ H1) as (A1 & A2 & A3). destruct (helper_jac _ _ _ _ H2) as (J & J1 & J2 & J3 & J4 & J5 & J6).
      cbv zeta in H3. change (o_limit_step bdf_newton_options) with false in H3.
      assert (Em : o_max_step (bdf_newton_options (T := R)) = -1) by reflexivity. rewrite Em in H3. destruct (Rlt_dec 0 (-1)) as [Hlt|_]; [lra|].
      destruct H3 as (L1 & L2 & L3). cbv iota in L2, L3. destruct He as (E1 & E2 & E3).
      assert (Ed : v_d v' = e) by (rewrite L2; rewrite <- map_id; apply map_ext; intros; ring).
      split; [exact A2|]. split; [rewrite Ed, E1; exact J5|]. split; [congruence|]. exists J. split; [exact J1|]. split; [exact J2|]. split; [exact J3|]. rewrite Ed. split.
      - intros p Hp. rewrite J4 in E3. specialize (E3 p Hp). rewrite ventry_vopp, A3 in E3. unfold res in E3. rewrite <- E3, J5.
        rewrite (Rsum_ext n (fun j => mentry (v_J v) p j * ventry e j) (fun j => delta p j * ventry e j - h * bdf_beta k * (mentry J p j * ventry e j))).
        + rewrite Rsum_minus, Rsum_scal, (delta_sum n p (ventry e) Hp). reflexivity.
        + intros j Hj. rewrite J6 by assumption. ring.
      - intros p Hp. rewrite L3 by congruence. ring.
    Qed.

    (** the visited points form a chain of Newton steps *)
    Lemma chain_of v0 V : Forall (answered G) (v0 :: V) -> Forall (answered_jac G) (v0 :: V) ->
      consecutive (fun v v' => invertible (v_J v) -> newton_step bdf_newton_options v v') (v0 :: V) ->
      forall l, (l < length V)%nat -> bdf_newton_step F n k f (t + h) h ys (length ys)
        (nth l (map v_x (v0 :: V)) []) (nth (S l) (map v_x (v0 :: V)) []) (nth l (map v_d V) []).
    Proof.
      intros Ha Hj Hc l Hlt.
      assert (E1 : exists v, nth_error (v0 :: V) l = Some v).
      { destruct (nth_error (v0 :: V) l) eqn:E; [eauto|]. apply nth_error_None in E. simpl in E. lia. }
      assert (E2 : exists v', nth_error V l = Some v').
      { destruct (nth_error V l) eqn:E; [eauto|]. apply nth_error_None in E. lia. }
      destruct E1 as [v Ev]. destruct E2 as [v' Ev'].
      assert (A1 : answered G v) by (rewrite Forall_forall in Ha; apply Ha; eapply nth_error_In; exact Ev).
      assert (A2 : answered_jac G v) by (rewrite Forall_forall in Hj; apply Hj; eapply nth_error_In; exact Ev).
      assert (Hst : newton_step bdf_newton_options v v').
      { apply (Hc l v v'); [exact Ev|exact Ev'|]. destruct A2 as (u & u' & E). eapply helper_invertible, E. }
      rewrite (nth_error_nth (map v_x (v0 :: V)) l [] (map_nth_error v_x l (v0 :: V) Ev)).
      change (map v_x (v0 :: V)) with (v_x v0 :: map v_x V). cbn [nth].
      rewrite (nth_error_nth (map v_x V) l [] (map_nth_error v_x l V Ev')), (nth_error_nth (map v_d V) l [] (map_nth_error v_d l V Ev')).
      apply helper_step; assumption.
    Qed.

    Lemma solve_no_throw v e : answered G v -> answered_jac G v -> solve (v_J v) (v_r v) <> Err (EThrow e).
    Proof.
      intros (s & s' & H1) (u & u' & H2) E. destruct (helper_fun _ _ _ _ H1) as (A1 & A2 & _). pose proof (helper_invertible _ _ _ _ H2) as Hi.
      destruct (helper_jac _ _ _ _ H2) as (J & _ & _ & _ & J4 & _). destruct (solve_total_R (v_J v) (v_r v) Hi) as [x Hx]; [congruence|congruence].
    Qed.
  End OneStep.

  Definition newton_chain (ys : list (list R)) (t : R) (xs es : list (list R)) : Prop :=
    length xs = S (length es) /\ nth 0 xs [] = last ys [] /\
    (forall l, (l < length es)%nat -> bdf_newton_step F n k f (t + h) h ys (length ys) (nth l xs []) (nth (S l) xs []) (nth l es [])).

  Lemma dx_R : o_dx_delta (bdf_newton_options (T := R)) = 1 / 10000000000.
  Proof. reflexivity. Qed.

  Lemma bdf_step_R ys t y : (k <= length ys)%nat -> length (last ys []) = n -> bdf_Step F order n h ys t y ->
    exists xs es, newton_chain ys t xs es /\ (1 <= length es < 500)%nat /\ y = last xs [] /\
      (forall l, (S l < length es)%nat -> ~ la_norminf (nth l es []) < 1 / 10000000000) /\ la_norminf (last es []) < 1 / 10000000000.
  Proof.
    intros Hl Hn (b & part & s & s' & st0 & st & pr & Hb & Hp & Hr & Hs). rewrite Hn, bdf_beta_R in Hr. fold k in Hr, Hp.
    change (smul h (bdf_beta k)) with (h * bdf_beta k) in Hr. change (sadd t h) with (t + h) in Hr.
    apply newton_trace in Hr; [|reflexivity|reflexivity|simpl; lia].
    destruct Hr as (v0 & V & Hx & Ha & Hj & Hc & Hnc & Hlen & Hok & _). destruct (Hok Hs) as (Hne & Hlt & -> & Hcv).
    exists (map v_x (v0 :: V)), (map v_d V). split; [|split; [|split; [|split]]].
    - split; [simpl; rewrite !map_length; reflexivity|]. split; [exact Hx|]. rewrite map_length. intros l Hl'. exact (chain_of ys t b part Hb Hl Hn Hp v0 V Ha Hj Hc l Hl').
    - rewrite map_length. change (Z.to_nat (o_maxit (bdf_newton_options (T := R)))) with 500%nat in Hlt. destruct V; [congruence|]. split; [simpl; lia|exact Hlt].
    - destruct V as [|v V] using rev_ind; [congruence|]. rewrite last_last. rewrite app_comm_cons, map_app. cbn [map]. rewrite last_last. reflexivity.
    - rewrite map_length. intros l Hl'. destruct V as [|v V _] using rev_ind; [congruence|]. rewrite removelast_last in Hnc. rewrite app_length in Hl'. simpl in Hl'.
      rewrite map_app, app_nth1 by (rewrite map_length; lia). 
      destruct (nth_error V l) as [u|] eqn:Eu; [|apply nth_error_None in Eu; lia].
      rewrite (nth_error_nth (map v_d V) l [] (map_nth_error v_d l V Eu)). specialize (Hnc u (nth_error_In _ _ Eu)). unfold converged in Hnc.
      cbn [sltb RScalar] in Hnc. apply Rltb_f in Hnc. rewrite dx_R in Hnc. lra.
    - destruct V as [|v V _] using rev_ind; [congruence|]. rewrite last_last in Hcv. rewrite map_app. cbn [map]. rewrite last_last. unfold converged in Hcv.
      cbn [sltb RScalar] in Hcv. apply Rltb_t in Hcv. rewrite dx_R in Hcv. exact Hcv.
  Qed.

  Lemma bdf_stop_R ys t : (k <= length ys)%nat -> length (last ys []) = n -> bdf_Stop F order n h ys t ->
    exists xs es, newton_chain ys t xs es /\ length es = 500%nat /\
      (forall l, (S l < length es)%nat -> ~ la_norminf (nth l es []) < 1 / 10000000000).
  Proof.
    intros Hl Hn (b & part & s & s' & st0 & y & st & pr & Hb & Hp & Hr & Hs). rewrite Hn, bdf_beta_R in Hr. fold k in Hr, Hp.
    change (smul h (bdf_beta k)) with (h * bdf_beta k) in Hr. change (sadd t h) with (t + h) in Hr.
    apply newton_trace in Hr; [|reflexivity|reflexivity|simpl; lia].
    destruct Hr as (v0 & V & Hx & Ha & Hj & Hc & Hnc & Hlen & _ & Hok). destruct (Hok Hs) as [Hm|[e He]].
    - change (Z.to_nat (o_maxit (bdf_newton_options (T := R)))) with 500%nat in Hm.
      exists (map v_x (v0 :: V)), (map v_d V). split; [|split].
      + split; [simpl; rewrite !map_length; reflexivity|]. split; [exact Hx|]. rewrite map_length. intros l Hl'. exact (chain_of ys t b part Hb Hl Hn Hp v0 V Ha Hj Hc l Hl').
      + rewrite map_length. exact Hm.
      + rewrite map_length. intros l Hl'. destruct V as [|v V _] using rev_ind; [simpl in Hl'; lia|]. rewrite removelast_last in Hnc. rewrite app_length in Hl'. simpl in Hl'.
        rewrite map_app, app_nth1 by (rewrite map_length; lia). 
        destruct (nth_error V l) as [u|] eqn:Eu; [|apply nth_error_None in Eu; lia].
        rewrite (nth_error_nth (map v_d V) l [] (map_nth_error v_d l V Eu)). specialize (Hnc u (nth_error_In _ _ Eu)). unfold converged in Hnc.
        cbn [sltb RScalar] in Hnc. apply Rltb_f in Hnc. rewrite dx_R in Hnc. lra.
    - exfalso. assert (Hin : In (last V v0) (v0 :: V)).
      { destruct V as [|v V _] using rev_ind; [left; reflexivity|]. rewrite last_last. right. apply in_or_app. right. left. reflexivity. }
      rewrite Forall_forall in Ha, Hj. exact (solve_no_throw ys t b part Hb Hl Hn Hp (last V v0) e (Ha _ Hin) (Hj _ Hin) He).
  Qed.

  (** every step of the chain preserves the dimension *)
  Lemma chain_length ys t xs es : newton_chain ys t xs es -> (1 <= length es)%nat -> length (last xs []) = n.
  Proof.
    intros (L & _ & Hc) H1. rewrite last_nth, L. replace (S (length es) - 1)%nat with (S (length es - 1)) by lia.
    destruct (Hc (length es - 1)%nat ltac:(lia)) as (_ & _ & E & _). exact E.
  Qed.
End Bdf.
