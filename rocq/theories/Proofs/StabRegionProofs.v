(** The stability function computed by the program is the factor by which a Runge-Kutta step multiplies solutions of y' = l y. *)
From Coq Require Import Reals Lra.
From Verif Require Import Model.Base Model.Scalar Model.LinAlg Model.Enums Model.Coeffs Model.IrkCoeffs Model.StabRegion Spec.Sums Spec.Trees Spec.RkSpec Spec.NewtonSpec Spec.StabilitySpec Spec.ComplexSpec.
From Verif Require Import Proofs.SumsProofs Proofs.RVec Proofs.AlgStable Proofs.AlgStableTables Proofs.TablesGeneric Proofs.ErkProofs.
Local Open Scope R_scope.

(** ** Complex sums *)
Lemma cx_eq (z w : cx R) : re z = re w -> im z = im w -> z = w.
Proof. destruct z, w. cbn. intros -> ->. reflexivity. Qed.
Lemma csum_ext n f g : (forall i, (i < n)%nat -> f i = g i) -> csum n f = csum n g.
Proof. intros H. unfold csum. f_equal; apply Rsum_ext; intros i Hi; rewrite (H i Hi); reflexivity. Qed.
Lemma csum_mul n k f : csum n (fun i => cmul k (f i)) = cmul k (csum n f).
Proof. unfold csum, cmul, re, im. cbn [fst snd]. rewrite Rsum_minus, Rsum_plus, !Rsum_scal. reflexivity. Qed.
Lemma csum_add n f g : csum n (fun i => cadd (f i) (g i)) = cadd (csum n f) (csum n g).
Proof. unfold csum, cadd, re, im. cbn [fst snd]. rewrite !Rsum_plus. reflexivity. Qed.

Ltac cring := apply cx_eq; unfold cadd, cmul, re, im; cbn [fst snd]; ring.

(** the matrix I - z A *)
Lemma stab_matrix_dims N z (A : mat R) M : stab_matrix N z A = Ok M -> nrows A = N /\ ncols A = N /\ nrows M = N /\ ncols M = N.
Proof.
  unfold stab_matrix. destruct (_ && _) eqn:E; [|discriminate]. apply andb_prop in E. destruct E as [E1 E2]. apply Nat.eqb_eq in E1, E2.
  intros H. injection H as <-. rewrite mtab_ncols. auto.
Qed.
Lemma stab_matrix_entry N z (A : mat R) M i j : stab_matrix N z A = Ok M -> (i < N)%nat -> (j < N)%nat ->
  centry M i j = (delta i j - re z * mentry A i j, - (im z * mentry A i j)).
Proof.
  unfold stab_matrix. destruct (_ && _); [|discriminate]. intros E Hi Hj. injection E as <-. unfold centry.
  rewrite mtab_col by assumption. rewrite vtab_nth by assumption. cbv zeta.
  unfold mentry, delta. apply cx_eq; unfold re, im; cbn [fst snd].
  - destruct (Nat.eq_dec i j) as [->|Hn]; [rewrite Nat.eqb_refl|rewrite (proj2 (Nat.eqb_neq i j) Hn)]; reflexivity.
  - cbn. ring.
Qed.
Lemma stab_row N z (A : mat R) M i (x : nat -> cx R) : stab_matrix N z A = Ok M -> (i < N)%nat ->
  csum N (fun j => cmul (centry M i j) (x j)) = cadd (x i) (cmul (cmul (-1, 0) z) (csum N (fun j => cmul (mentry A i j, 0) (x j)))).
Proof.
  intros E Hi. rewrite <- csum_mul. rewrite (csum_ext N _ (fun j => cadd (cmul (delta i j, 0) (x j)) (cmul (cmul (-1, 0) z) (cmul (mentry A i j, 0) (x j))))).
  - rewrite csum_add. f_equal. unfold csum, cmul, re, im. cbn [fst snd]. apply cx_eq; unfold re, im; cbn [fst snd].
    + rewrite (Rsum_ext N _ (fun j => delta i j * fst (x j))) by (intros; ring). apply (delta_sum N i (fun j => fst (x j)) Hi).
    + rewrite (Rsum_ext N _ (fun j => delta i j * snd (x j))) by (intros; ring). apply (delta_sum N i (fun j => snd (x j)) Hi).
  - intros j Hj. rewrite (stab_matrix_entry N z A M i j E Hi Hj). cring.
Qed.

(** a step for y' = l y in complex notation *)
Lemma linear_times l t y : length y = 2%nat -> as_cx (linear_rhs 2 (times_matrix l) t y) = cmul l (as_cx y).
Proof.
  intros Hy. unfold as_cx, linear_rhs. rewrite !ventry_vt by lia. apply cx_eq; unfold cmul, re, im; cbn [fst snd Rsum times_matrix]; unfold re, im; ring.
Qed.
Lemma as_cx_vt (f : nat -> R) : as_cx (vtab 2 f) = (f 0%nat, f 1%nat).
Proof. reflexivity. Qed.
Lemma rk_step_cx s a b c l t h y y' k : rk_step 2 s a b c (linear_rhs 2 (times_matrix l)) t h y y' k ->
  (forall i, (i < s)%nat -> as_cx (nth i k []) = cmul l (cadd (as_cx y) (cmul (h, 0) (csum s (fun j => cmul (a i j, 0) (as_cx (nth j k [])))))) ) /\
  as_cx y' = cadd (as_cx y) (cmul (h, 0) (csum s (fun i => cmul (b i, 0) (as_cx (nth i k []))))).
Proof.
  intros (H1 & H2 & ->). split.
  - intros i Hi. destruct (H2 i Hi) as [_ E]. rewrite E at 1. rewrite linear_times by apply vtab_length. f_equal. rewrite as_cx_vt.
    apply cx_eq; unfold cadd, cmul, csum, as_cx, re, im; cbn [fst snd].
    + rewrite (Rsum_ext s (fun i0 => a i i0 * ventry (nth i0 k []) 0 - _) (fun j => a i j * ventry (nth j k []) 0)) by (intros; ring). ring.
    + rewrite (Rsum_ext s (fun i0 => a i i0 * ventry (nth i0 k []) 1 + _) (fun j => a i j * ventry (nth j k []) 1)) by (intros; ring). ring.
  - rewrite as_cx_vt. apply cx_eq; unfold cadd, cmul, csum, as_cx, re, im; cbn [fst snd].
    + rewrite (Rsum_ext s (fun i0 => b i0 * ventry (nth i0 k []) 0 - _) (fun j => b j * ventry (nth j k []) 0)) by (intros; ring). ring.
    + rewrite (Rsum_ext s (fun i0 => b i0 * ventry (nth i0 k []) 1 + _) (fun j => b j * ventry (nth j k []) 1)) by (intros; ring). ring.
Qed.

Section Exact.
  Context {CA : CxAlg R} {HC : ExactCx CA}.

  Lemma repeat_one N i : (i < N)%nat -> ventry (repeat 1 N) i = 1.
  Proof. unfold ventry. revert i. induction N as [|N IH]; intros i Hi; [lia|]. destruct i as [|i]; [reflexivity|]. cbn [repeat nth]. apply IH. lia. Qed.

  (** what the function returns *)
  Lemma stability_function_inv z (A : mat R) b v : stability_function z A b = Ok v -> exists M x,
    stab_matrix (length b) z A = Ok M /\ cx_regular (length b) M /\
    (forall i, (i < length b)%nat -> csum (length b) (fun j => cmul (centry M i j) (x j)) = (1, 0)) /\
    v = cadd (1, 0) (cmul z (csum (length b) (fun i => cmul (ventry b i, 0) (x i)))).
  Proof.
    unfold stability_function. cbv zeta. unfold rbind. destruct (stab_matrix (length b) z A) as [M|e] eqn:EM; [|discriminate].
    destruct (stab_matrix_dims _ _ _ _ EM) as (_ & _ & D1 & D2).
    change (slit 1 0) with 1. change (slit 0 0) with 0.
    destruct (cx_inv_times M (repeat 1 (length b))) as [x|] eqn:Ex; [|discriminate]. intros E. injection E as <-. exists M, x. split; [reflexivity|].
    destruct (exact_cinv M (repeat 1 (length b)) x) as [X1 X2]; [congruence|rewrite repeat_length; congruence|exact Ex|]. rewrite D1 in * . split; [exact X1|]. split.
    - intros i Hi. rewrite (X2 i Hi), repeat_one by exact Hi. reflexivity.
    - rewrite exact_cadd, exact_cmul, exact_cdot by (rewrite vtab_length; reflexivity). f_equal. f_equal. apply csum_ext. intros i Hi. rewrite vtab_nth by exact Hi. reflexivity.
  Qed.
  Lemma stability_function_total z (A : mat R) b M : stab_matrix (length b) z A = Ok M -> cx_regular (length b) M -> exists v, stability_function z A b = Ok v.
  Proof.
    intros EM HR. destruct (stab_matrix_dims _ _ _ _ EM) as (_ & _ & D1 & D2). unfold stability_function. cbv zeta. unfold rbind. rewrite EM.
    destruct (cx_inv_times M (repeat (slit 1 0) (length b))) as [x|] eqn:Ex; [eexists; reflexivity|]. exfalso. revert Ex. apply exact_cinv_total; [congruence|rewrite repeat_length; congruence|rewrite D1; exact HR].
  Qed.

  (** every step of the method multiplies by it *)
  Lemma stability_amplifies l h (A : mat R) b c v t y y' k : stability_function (cmul (h, 0) l) A b = Ok v ->
    rk_step 2 (length b) (mentry A) (ventry b) c (linear_rhs 2 (times_matrix l)) t h y y' k -> as_cx y' = cmul v (as_cx y).
  Proof.
    intros Hv Hk. destruct (stability_function_inv _ _ _ _ Hv) as (M & x & EM & HR & HX & ->). destruct (rk_step_cx _ _ _ _ _ _ _ _ _ _ Hk) as [K1 K2]. clear Hk Hv.
    set (kc := fun i => as_cx (nth i k [])) in * . set (Y := as_cx y) in * .
    assert (Hkx : forall i, (i < length b)%nat -> cadd (kc i) (cmul (cmul (-1, 0) (cmul l Y)) (x i)) = (0, 0)).
    { refine (HR (fun i => cadd (kc i) (cmul (cmul (-1, 0) (cmul l Y)) (x i))) _). intros i Hi.
      rewrite (csum_ext _ _ (fun j => cadd (cmul (centry M i j) (kc j)) (cmul (cmul (-1, 0) (cmul l Y)) (cmul (centry M i j) (x j))))) by (intros; cring).
      rewrite csum_add, csum_mul, (HX i Hi), (stab_row _ _ _ _ i kc EM Hi).
      pose proof (K1 i Hi) as E. change (as_cx (nth i k [])) with (kc i) in E. change (fun j => cmul (mentry A i j, 0) (as_cx (nth j k []))) with (fun j => cmul (mentry A i j, 0) (kc j)) in E. rewrite E at 1. clear E.
      set (S := csum _ _). clearbody S. cring. }
    rewrite K2. change (fun i => cmul (ventry b i, 0) (as_cx (nth i k []))) with (fun i => cmul (ventry b i, 0) (kc i)).
    rewrite (csum_ext _ _ (fun i => cmul (cmul l Y) (cmul (ventry b i, 0) (x i)))).
    - rewrite csum_mul. set (S := csum _ _). clearbody S. cring.
    - intros i Hi. pose proof (Hkx i Hi) as H. assert (E : kc i = cmul (cmul l Y) (x i)).
      { apply cx_eq; [apply (f_equal re) in H|apply (f_equal im) in H]; unfold cadd, cmul, re, im in *; cbn [fst snd] in *; lra. }
      rewrite E. cring.
  Qed.

  (** there is a step from every state *)
  Lemma stability_step_exists l h (A : mat R) b c v t y : length y = 2%nat -> stability_function (cmul (h, 0) l) A b = Ok v ->
    exists y' k, rk_step 2 (length b) (mentry A) (ventry b) c (linear_rhs 2 (times_matrix l)) t h y y' k.
  Proof.
    intros Hy Hv. destruct (stability_function_inv _ _ _ _ Hv) as (M & x & EM & HR & HX & _). clear Hv.
    set (kc := fun i => cmul (cmul l (as_cx y)) (x i)). set (k := map (fun i => [re (kc i); im (kc i)]) (seq 0 (length b))).
    assert (Hnth : forall i, (i < length b)%nat -> nth i k [] = [re (kc i); im (kc i)]).
    { intros i Hi. exact (vtab_nth (length b) (fun i => [re (kc i); im (kc i)]) i [] Hi). }
    assert (H0 : forall i, (i < length b)%nat -> ventry (nth i k []) 0 = re (kc i)) by (intros i Hi; rewrite (Hnth i Hi); reflexivity).
    assert (H1 : forall i, (i < length b)%nat -> ventry (nth i k []) 1 = im (kc i)) by (intros i Hi; rewrite (Hnth i Hi); reflexivity).
    eexists. exists k. split; [unfold k; rewrite map_length, seq_length; reflexivity|]. split; [|reflexivity].
    intros i Hi. rewrite (Hnth i Hi). split; [reflexivity|].
    pose proof (HX i Hi) as E. rewrite (stab_row _ _ _ _ i x EM Hi) in E.
    assert (E2 : kc i = cmul l (cadd (as_cx y) (cmul (h, 0) (csum (length b) (fun j => cmul (mentry A i j, 0) (kc j)))))).
    { rewrite (csum_ext _ _ (fun j => cmul (cmul l (as_cx y)) (cmul (mentry A i j, 0) (x j)))) by (intros; unfold kc; cring). rewrite csum_mul. unfold kc.
      set (S := csum _ _) in * . clearbody S. set (Y := as_cx y). assert (Ex : x i = cadd (1, 0) (cmul (cmul (h, 0) l) S)).
      { apply cx_eq; [apply (f_equal re) in E|apply (f_equal im) in E]; unfold cadd, cmul, re, im in *; cbn [fst snd] in *; lra. }
      rewrite Ex. cring. }
    set (u := vtab 2 (fun q => ventry y q + h * Rsum (length b) (fun j => mentry A i j * ventry (nth j k []) q))).
    assert (Eu : as_cx u = cadd (as_cx y) (cmul (h, 0) (csum (length b) (fun j => cmul (mentry A i j, 0) (kc j))))).
    { unfold u. rewrite as_cx_vt. apply cx_eq; unfold cadd, cmul, csum, as_cx, re, im; cbn [fst snd].
      - rewrite (Rsum_ext _ (fun i0 => mentry A i i0 * fst (kc i0) - _) (fun j => mentry A i j * ventry (nth j k []) 0)) by (intros j Hj; rewrite (H0 j Hj); unfold re; ring). ring.
      - rewrite (Rsum_ext _ (fun i0 => mentry A i i0 * snd (kc i0) + _) (fun j => mentry A i j * ventry (nth j k []) 1)) by (intros j Hj; rewrite (H1 j Hj); unfold im; ring). ring. }
    rewrite <- Eu, <- (linear_times l (t + c i * h) u) in E2 by apply vtab_length. rewrite E2. unfold linear_rhs, as_cx, re, im. cbn [fst snd]. reflexivity.
  Qed.

  (** ** The closed-form methods: |R(z)|^2 (1 + 2 b_s |Re z|) <= 1 in the left half plane *)
  Lemma times_damped l : damped_by (- re l) 2 (times_matrix l).
  Proof. intros x. cbn [Rsum times_matrix]. unfold re, im. right. ring. Qed.

  Lemma stable_regular sc z : stable_table sc -> nrows (sc_A sc) = length (sc_b sc) -> ncols (sc_A sc) = length (sc_b sc) -> re z <= 0 ->
    exists M, stab_matrix (length (sc_b sc)) z (sc_A sc) = Ok M /\ cx_regular (length (sc_b sc)) M.
  Proof.
    intros [T1 T2 T3 T4 T5] D1 D2 Hz.
    assert (HD : dissipative 2 (times_matrix z)) by (intros x; eapply Rle_trans; [apply times_damped|]; assert (0 <= Rsum 2 (fun p => x p * x p)) by (apply Rsum_nonneg; intros; apply Rle_0_sqr); nra).
    destruct (stab_matrix (length (sc_b sc)) z (sc_A sc)) as [M|e] eqn:EM.
    2:{ exfalso. unfold stab_matrix in EM. rewrite D1, D2, Nat.eqb_refl in EM. discriminate. }
    exists M. split; [reflexivity|]. intros x Hx j Hj.
    set (u := fun i p => match p with 0%nat => re (x i) | _ => im (x i) end).
    assert (Hu : kernel_of (length (sc_b sc)) (mfun (sc_A sc)) 2 (times_matrix z) 1 u).
    { intros i p Hi Hp. pose proof (Hx i Hi) as E. rewrite (stab_row _ _ _ _ i x EM Hi) in E.
      assert (Ex : x i = cmul z (csum (length (sc_b sc)) (fun j => cmul (mentry (sc_A sc) i j, 0) (x j)))).
      { set (S := csum _ _) in * . clearbody S. apply cx_eq; [apply (f_equal re) in E|apply (f_equal im) in E]; unfold cadd, cmul, re, im in *; cbn [fst snd] in *; lra. }
      rewrite <- csum_mul in Ex. unfold slope_of. destruct p as [|[|p]]; [| |lia]; cbn [u]; rewrite Ex; unfold csum, re, im; cbn [fst snd]; apply Rsum_ext; intros q Hq;
        unfold u; cbn [Rsum times_matrix]; unfold cmul, re, im, mfun; cbn [fst snd]; ring. }
    apply cx_eq; [apply (kernel_trivial _ _ _ T2 T3 2 (times_matrix z) 1 HD Rle_0_1 u Hu j 0%nat Hj); lia|apply (kernel_trivial _ _ _ T2 T3 2 (times_matrix z) 1 HD Rle_0_1 u Hu j 1%nat Hj); lia].
  Qed.
  Lemma stable_decay `{Env R} m w sc z : In (m, w) last_weights -> irk_get_coefficients m = Ok sc -> re z <= 0 ->
    exists v, stability_function z (sc_A sc) (sc_b sc) = Ok v /\ (1 + 2 * w * - re z) * (cabs v * cabs v) <= 1.
  Proof.
    intros Hm Hg Hz. destruct (closed_stable m w sc Hm Hg) as [HT Hw]. destruct (TablesGeneric.irk_get_ok (T := R) m) as (sc' & Hg' & _ & Hd). rewrite Hg in Hg'. injection Hg' as <-.
    assert (L : nrows (sc_A sc) = length (sc_b sc) /\ ncols (sc_A sc) = length (sc_b sc)).
    { destruct (dims_of sc _ Hd) as (L1 & L2 & L3 & L4 & L5). unfold ncols; split; congruence. }
    destruct (stable_regular sc z HT (proj1 L) (proj2 L) Hz) as (M & EM & HR). destruct (stability_function_total _ _ _ _ EM HR) as (v & Hv). exists v. split; [exact Hv|].
    assert (Ez : cmul (1, 0) z = z) by cring. rewrite <- Ez in Hv.
    destruct (stability_step_exists z 1 _ _ (fun _ => 0) v 0 [1; 0] eq_refl Hv) as (y' & k & Hk). pose proof (stability_amplifies z 1 _ _ _ v _ _ _ _ Hv Hk) as HA.
    destruct HT as [T1 T2 T3 T4 T5]. pose proof (linear_contracts _ _ _ T2 2 _ (times_matrix z) (- re z) _ 1 _ _ _ T1 T4 ltac:(lra) Rle_0_1 (times_damped z) Hk) as HK. rewrite Hw in HK.
    assert (E1 : norm2 2 [1; 0] = 1) by (unfold norm2, ventry; cbn; ring).
    assert (Ey : as_cx y' = v) by (rewrite HA; unfold as_cx, ventry; cbn [nth]; cring).
    assert (E2 : norm2 2 y' = cabs v * cabs v).
    { unfold cabs. rewrite sqrt_sqrt by (pose proof (Rle_0_sqr (re v)); pose proof (Rle_0_sqr (im v)); unfold Rsqr in *; lra). rewrite <- Ey. unfold norm2, as_cx, re, im. cbn [Rsum fst snd]. ring. }
    rewrite E1, E2 in HK. lra.
  Qed.
End Exact.
