(** Exact complex linear algebra exists (by choice), and the comparison formula's factor. *)
From Coq Require Import Reals Lra ClassicalEpsilon.
From Verif Require Import Model.Base Model.Scalar Model.LinAlg Model.Coeffs Model.StabRegion Spec.Sums Spec.Trees Spec.RkSpec Spec.NewtonSpec Spec.StabilitySpec Spec.ComplexSpec.
From Verif Require Import Proofs.StabPoly Proofs.StabProgram.
From Verif Require Import Model.ErkCoeffs Spec.Methods.
From Verif Require Import Proofs.SumsProofs Proofs.RVec Proofs.LinearKernel Proofs.Neumann Proofs.StabRegionProofs.
Local Open Scope R_scope.

Definition cx_good (M : mat (cx R)) (e : list R) (x : nat -> cx R) : Prop :=
  forall i, (i < nrows M)%nat -> csum (nrows M) (fun j => cmul (centry M i j) (x j)) = (ventry e i, 0).
Definition choice_cx : CxAlg R := {|
  cx_add := cadd; cx_mul := cmul; cx_abs := cabs;
  cx_inv_times M e := if excluded_middle_informative (cx_regular (nrows M) M) then Some (epsilon (inhabits (fun _ => (0, 0))) (cx_good M e)) else None;
  cx_dot b x := csum (length b) (fun i => cmul (ventry b i, 0) (nth i x (0, 0)))
|}.

(** a regular system has a solution: as a real system of twice the size *)
Definition real_of (n : nat) (M : mat (cx R)) (i j : nat) : R :=
  if (i <? n)%nat then (if (j <? n)%nat then re (centry M i j) else - im (centry M i (j - n)))
  else (if (j <? n)%nat then im (centry M (i - n) j) else re (centry M (i - n) (j - n))).
Lemma real_row n M x i : (i < n)%nat ->
  Rsum (n + n) (fun j => real_of n M i j * x j) = re (csum n (fun j => cmul (centry M i j) (x j, x (n + j)%nat))) /\
  Rsum (n + n) (fun j => real_of n M (n + i) j * x j) = im (csum n (fun j => cmul (centry M i j) (x j, x (n + j)%nat))).
Proof.
  intros Hi. assert (E1 : (i <? n)%nat = true) by (apply Nat.ltb_lt; lia). assert (E2 : (n + i <? n)%nat = false) by (apply Nat.ltb_ge; lia).
  unfold csum, re at 1, im at 1. cbn [fst snd]. rewrite !Rsum_add. split; rewrite <- Rsum_plus; apply Rsum_ext; intros j Hj; unfold real_of; rewrite ?E1, ?E2;
    assert (E3 : (j <? n)%nat = true) by (apply Nat.ltb_lt; lia); assert (E4 : (n + j <? n)%nat = false) by (apply Nat.ltb_ge; lia); rewrite E3, E4;
    replace (n + j - n)%nat with j by lia; replace (n + i - n)%nat with i by lia; unfold cmul, re, im; cbn [fst snd]; ring.
Qed.
Lemma regular_solve n M e : cx_regular n M -> exists x, forall i, (i < n)%nat -> csum n (fun j => cmul (centry M i j) (x j)) = (ventry e i, 0).
Proof.
  intros HR. destruct (solve_all (n + n) (real_of n M)) with (b := fun i => if (i <? n)%nat then ventry e i else 0) as (x & Hx).
  - intros x Hx. assert (H : forall j, (j < n)%nat -> (x j, x (n + j)%nat) = (0, 0)).
    { refine (HR (fun j => (x j, x (n + j)%nat)) _). intros i Hi. destruct (real_row n M x i Hi) as [E1 E2]. apply cx_eq; [rewrite <- E1; apply Hx; lia|rewrite <- E2; apply Hx; lia]. }
    intros j Hj. destruct (Nat.lt_ge_cases j n) as [Hl|Hl]; [exact (f_equal fst (H j Hl))|]. pose proof (f_equal snd (H (j - n)%nat ltac:(lia))) as E. cbn [snd] in E. replace (n + (j - n))%nat with j in E by lia. exact E.
  - exists (fun j => (x j, x (n + j)%nat)). intros i Hi. destruct (real_row n M x i Hi) as [E1 E2]. apply cx_eq.
    + rewrite <- E1, (Hx i) by lia. rewrite (proj2 (Nat.ltb_lt i n) Hi). reflexivity.
    + rewrite <- E2, (Hx (n + i)%nat) by lia. rewrite (proj2 (Nat.ltb_ge (n + i) n)) by lia. reflexivity.
Qed.
#[export] Instance choice_cx_exact : ExactCx choice_cx.
Proof.
  split; try reflexivity.
  - intros M e x _ _ H. cbn [cx_inv_times choice_cx] in H. destruct (excluded_middle_informative _) as [HR|]; [|discriminate]. injection H as <-. split; [exact HR|].
    apply (epsilon_spec (inhabits (fun _ => (0, 0))) (cx_good M e)). apply regular_solve. exact HR.
  - intros M e _ _ HR H. cbn [cx_inv_times choice_cx] in H. destruct (excluded_middle_informative _); [discriminate|contradiction].
Qed.

Section Comparison.
  Context {CA : CxAlg R} {HC : ExactCx CA}.
  (** with the weight g on the slope at the start, g z is added *)
  Lemma comparison_factor l h (A : mat R) b2 g c v t y y' k : stability_function (cmul (h, 0) l) A b2 = Ok v ->
    rk_step 2 (S (length b2)) (ext_a (length b2) (mentry A)) (ext_b (length b2) (ventry b2) g) c (linear_rhs 2 (times_matrix l)) t h y y' k ->
    as_cx y' = cmul (cadd v (cmul (g, 0) (cmul (h, 0) l))) (as_cx y).
  Proof.
    intros Hv Hk. set (s := length b2) in * . pose proof (rk_step_cx _ _ _ _ _ _ _ _ _ _ Hk) as [K1 K2]. destruct Hk as (L & H2 & _).
    assert (Hs : forall f, csum (S s) f = cadd (csum s f) (f s)) by (intros f; unfold csum; cbn [Rsum]; reflexivity).
    assert (Hext : forall i j, (i < s)%nat -> (j < s)%nat -> ext_a s (mentry A) i j = mentry A i j).
    { intros i j Hi Hj. unfold ext_a. rewrite (proj2 (Nat.ltb_lt i s) Hi), (proj2 (Nat.ltb_lt j s) Hj). reflexivity. }
    assert (Hext0 : forall i, ext_a s (mentry A) i s = 0). { intros i. unfold ext_a. rewrite Nat.ltb_irrefl, andb_false_r. reflexivity. }
    assert (Hext1 : forall j, ext_a s (mentry A) s j = 0). { intros j. unfold ext_a. rewrite Nat.ltb_irrefl. reflexivity. }
    assert (Hrk : rk_step 2 s (mentry A) (ventry b2) c (linear_rhs 2 (times_matrix l)) t h y (vtab 2 (fun q => ventry y q + h * Rsum s (fun i => ventry b2 i * ventry (nth i (firstn s k) []) q))) (firstn s k)).
    { split; [rewrite firstn_length; lia|]. assert (Hn : forall i, (i < s)%nat -> nth i (firstn s k) [] = nth i k []).
      { intros i Hi. rewrite <- (firstn_skipn s k) at 2. rewrite app_nth1; [reflexivity|rewrite firstn_length; lia]. }
      split; [|reflexivity]. intros i Hi. rewrite (Hn i Hi). destruct (H2 i ltac:(lia)) as [E1 E2]. split; [exact E1|]. rewrite E2 at 1. f_equal. apply vtab_ext. intros q Hq. f_equal. f_equal. cbn [Rsum].
      rewrite Hext0, Rmult_0_l, Rplus_0_r. apply Rsum_ext. intros j Hj. rewrite (Hext i j Hi Hj), (Hn j Hj). reflexivity. }
    pose proof (stability_amplifies l h A b2 c v t y _ _ Hv Hrk) as HA. destruct (rk_step_cx _ _ _ _ _ _ _ _ _ _ Hrk) as [_ K3]. rewrite HA in K3. clear HA.
    assert (Ek : as_cx (nth s k []) = cmul l (as_cx y)).
    { rewrite (K1 s ltac:(lia)). rewrite (csum_ext _ _ (fun _ => (0, 0))) by (intros j Hj; rewrite Hext1; cring). unfold csum. rewrite Rsum_0 by reflexivity. rewrite Rsum_0 by reflexivity. cring. }
    rewrite K2, Hs, Ek. rewrite (csum_ext s (fun i => cmul (ext_b s (ventry b2) g i, 0) (as_cx (nth i k []))) (fun i => cmul (ventry b2 i, 0) (as_cx (nth i (firstn s k) [])))).
    - assert (Eb : ext_b s (ventry b2) g s = g) by (unfold ext_b; rewrite Nat.ltb_irrefl; reflexivity). rewrite Eb. set (S_ := csum _ _) in * . clearbody S_. set (Y := as_cx y) in * . clearbody Y.
      clear - K3. apply cx_eq; [apply (f_equal re) in K3|apply (f_equal im) in K3]; unfold cadd, cmul, re, im in *; cbn [fst snd] in *; lra.
    - intros i Hi. unfold ext_b. rewrite (proj2 (Nat.ltb_lt i s) Hi). rewrite <- (firstn_skipn s k) at 1. rewrite app_nth1; [reflexivity|rewrite firstn_length; lia].
  Qed.
End Comparison.

(** At z = -1/2 every explicit method damps. *)
Lemma grows_by_unique s a b z g g' : grows_by s a b z g -> grows_by s a b z g' -> g = g'.
Proof.
  intros H1 H2. destruct (H1 (fun _ => 0) 0 1 z ltac:(apply cx_eq; unfold cmul, re, im; cbn [fst snd]; ring)) as [Hex Hg].
  destruct (H2 (fun _ => 0) 0 1 z ltac:(apply cx_eq; unfold cmul, re, im; cbn [fst snd]; ring)) as [_ Hg'].
  destruct (Hex [1; 0] eq_refl) as (u' & k & Hk). pose proof (Hg _ _ _ Hk) as E1. pose proof (Hg' _ _ _ Hk) as E2. rewrite E1 in E2.
  assert (E3 : cabs (as_cx [1; 0]) = 1). { unfold cabs, as_cx, ventry, re, im; cbn [fst snd nth]. rewrite Rmult_1_r, Rmult_0_r, Rplus_0_r. apply sqrt_1. }
  rewrite E3 in E2. lra.
Qed.
Lemma explicit_not_one m sc : In m explicit_methods -> erk_get_coefficients (T := R) m = Ok sc ->
  (exists g, grows_by (length (sc_b sc)) (mentry (sc_A sc)) (ventry (sc_b sc)) (- (1 / 2), 0) g) /\
  forall g, grows_by (length (sc_b sc)) (mentry (sc_A sc)) (ventry (sc_b sc)) (- (1 / 2), 0) g -> 0 < g < 1.
Proof.
  intros Hm Hg. destruct (explicit_dims m sc Hm Hg) as (D1 & D2 & Dl). pose proof (half_damps sc m Hm Hg) as Hh.
  pose proof (value_grows (CA := choice_cx) _ _ _ _ (value_explicit (CA := choice_cx) (- (1 / 2)) (sc_A sc) (sc_b sc) D1 D2 Dl)) as Hv.
  split; [eexists; exact Hv|]. intros g Hg'. rewrite (grows_by_unique _ _ _ _ _ _ Hg' Hv).
  unfold cabs, re, im. cbn [fst snd]. rewrite Rmult_0_r, Rplus_0_r. rewrite sqrt_square by lra. exact Hh.
Qed.
