(** three_body: what is right and what is wrong. *)
From Coq Require Import Reals Lra Lia.
From Coquelicot Require Import Coquelicot.
From Verif Require Import Model.Base Model.Scalar Model.LinAlg Model.TestEquations Spec.Sums Spec.JacobianSpec Spec.TestEquationsSpec Proofs.SumsProofs Proofs.TestEquationsProofs.
Local Open Scope R_scope.

Lemma apart_pos : forall a b c d, a <> c \/ b <> d -> 0 < (c - a) * (c - a) + (d - b) * (d - b).
Proof.
  intros a b c d [N|N].
  - pose proof (Rsqr_pos_lt (c - a) ltac:(lra)). pose proof (Rle_0_sqr (d - b)). unfold Rsqr in * . lra.
  - pose proof (Rsqr_pos_lt (d - b) ltac:(lra)). pose proof (Rle_0_sqr (c - a)). unfold Rsqr in * . lra.
Qed.

Section ThreeBody.
  Context {St : Type}.
  Variables m1 m2 m3 : R.

  (** what [fun] and [jac] return *)
  Definition tb_value (y : list R) : list R := match three_body_fun m1 m2 m3 0 y with Ok v => v | Err _ => [] end.
  Lemma tb_fun : forall t y (s : St), length y = 12%nat -> f_fun (three_body m1 m2 m3) t y s = (s, Ok (tb_value y)) /\ length (tb_value y) = 12%nat.
  Proof. intros t y s H. openv y H. split; reflexivity. Qed.

  (** the momentum in x is conserved *)
  Lemma tb_x_momentum : forall t y (s s' : St) v, length y = 12%nat -> f_fun (three_body m1 m2 m3) t y s = (s', Ok v) ->
    ventry v 6 + ventry v 8 + ventry v 10 = 0.
  Proof.
    intros t y s s' v H E. openv y H. injection E as _ <-. unfold ventry. cbn -[tb_cube]. unfold Rdiv. ring.
  Qed.
  (** the momentum in y changes at this rate *)
  Lemma tb_y_momentum : forall t y (s s' : St) v, length y = 12%nat -> f_fun (three_body m1 m2 m3) t y s = (s', Ok v) ->
    let dx := ventry y 4 - ventry y 2 in let dy := ventry y 5 - ventry y 3 in
    ventry v 7 + ventry v 9 + ventry v 11 = m2 * m3 * (dx - dy) / (sqrt (dx * dx + dy * dy) * (dx * dx + dy * dy)).
  Proof.
    intros t y s s' v H E. openv y H. injection E as _ <-. unfold ventry. cbn. unfold tb_cube. cbn. unfold Rdiv.
    rewrite (Rmult_comm (sqrt _)). ring.
  Qed.

  Lemma tb_conserves_x : @conserves St 12 (three_body m1 m2 m3) momentum_x.
  Proof.
    intros t y s s' v H E. pose proof (tb_x_momentum t y s s' v H E) as K. clear -K. unfold momentum_x. cbn [Rsum nth]. lra.
  Qed.
  Lemma tb_not_conserves_y : m2 <> 0 -> m3 <> 0 -> forall s : St, ~ @conserves St 12 (three_body m1 m2 m3) momentum_y.
  Proof.
    intros N2 N3 s HC. pose (y := [0; 0; 1; 0; 4; 4; 0; 0; 0; 0; 0; 0]).
    destruct (tb_fun 0 y s eq_refl) as (E & _). pose proof (HC 0 y s s _ eq_refl E) as K.
    pose proof (tb_y_momentum 0 y s s _ eq_refl E) as Q. cbv zeta in Q. unfold momentum_y in K. cbn [Rsum nth] in K.
    set (v := tb_value y) in * . clearbody v.
    replace (ventry y 4 - ventry y 2) with 3 in Q by (unfold y, ventry; cbn [nth]; ring).
    replace (ventry y 5 - ventry y 3) with 4 in Q by (unfold y, ventry; cbn [nth]; ring).
    replace (3 * 3 + 4 * 4) with (5 * 5) in Q by ring. rewrite sqrt_square in Q by lra.
    assert (Q' : m2 * m3 = -125 * (ventry v 7 + ventry v 9 + ventry v 11)) by (rewrite Q; field).
    apply (Rmult_integral_contrapositive m2 m3 (conj N2 N3)). rewrite Q'. lra.
  Qed.

  (** entry (0,6) of the Jacobian *)
  Lemma tb_jac_entry : forall t y (s : St), length y = 12%nat -> exists J, f_jac (three_body m1 m2 m3) t y s = (s, Ok J) /\ mentry J 0 6 = 0.
  Proof. intros t y s H. openv y H. eexists. split; [reflexivity|]. unfold mentry. cbn. lra. Qed.
  Lemma tb_jac_wrong : m1 <> 0 -> forall D, (exists y, length y = 12%nat /\ D y) -> forall s : St, ~ jac_is_derivative 12 D (@three_body R _ St m1 m2 m3).
  Proof.
    intros Hm D (y & L & Hy) s (f & Hf & HJ).
    destruct (HJ 0 y s L Hy) as (J & EJ & _ & _ & Hd). specialize (Hd 0%nat 6%nat ltac:(lia) ltac:(lia)).
    destruct (tb_jac_entry 0 y s L) as (J' & EJ' & Z). rewrite EJ in EJ'. injection EJ' as <-. rewrite Z in Hd.
    assert (Hg : derivable_pt_lim (along (f 0) y 0 6) (ventry y 6) (/ m1)).
    { apply is_derive_Reals. apply is_derive_ext with (f := fun u => u / m1).
      - intro u. unfold along. assert (Ls : length (list_set y 6 u) = 12%nat) by (clear -L; openv y L; reflexivity).
        destruct (Hf 0 (list_set y 6 u) s Ls) as (E & _). destruct (tb_fun 0 (list_set y 6 u) s Ls) as (E' & _).
        rewrite E in E'. injection E' as ->. clear -L. openv y L. reflexivity.
      - auto_derive; [exact I|]. field. exact Hm. }
    assert (0 = / m1) by (eapply uniqueness_limite; [exact Hd|exact Hg]).
    apply (Rinv_neq_0_compat m1 Hm). symmetry. assumption.
  Qed.

  (** the potential energy along one coordinate, and the forces *)
  Definition tb_pot (y : list R) : R := match three_body_pot m1 m2 m3 y with Ok v => v | Err _ => 0 end.
  Lemma tb_pot_value : forall y, length y = 12%nat -> three_body_pot m1 m2 m3 y = Ok (tb_pot y).
  Proof. intros y H. openv y H. reflexivity. Qed.

  Ltac root A := match type of A with 0 < ?q => let r := fresh "r" in let Q := fresh "Q" in
    pose proof (sqrt_sqrt q (Rlt_le _ _ A)) as Q; set (r := sqrt q) in * ; try rewrite <- Q; clearbody r; clear Q end.
  Ltac force A B C :=
    apply is_derive_Reals; unfold ventry; cbn; unfold tb_cube; cbn; unfold tb_pot; cbn;
    (auto_derive; [repeat split; try lra; try exact A; try exact B; try exact C; try (apply Rgt_not_eq; assumption)|]);
    repeat match goal with |- context [?a + - ?b] => change (a + - b) with (a - b) end;
    root A; root B; root C;
    field; repeat split; apply Rgt_not_eq; assumption.
  Ltac opened H A B C E :=
    injection E as _ <-; unfold ventry in A, B, C; cbn [nth] in A, B, C;
    apply apart_pos in A; apply apart_pos in B; apply apart_pos in C;
    pose proof (sqrt_lt_R0 _ A); pose proof (sqrt_lt_R0 _ B); pose proof (sqrt_lt_R0 _ C).

  Lemma tb_forces : forall t y (s s' : St) v, length y = 12%nat -> apart y -> f_fun (three_body m1 m2 m3) t y s = (s', Ok v) ->
    forall k, (k < 6)%nat -> k <> 3%nat -> derivable_pt_lim (fun u => tb_pot (list_set y k u)) (ventry y k) (- ventry v (6 + k)).
  Proof.
    intros t y s s' v H (A & B & C) E k Hk N. openv y H. opened H A B C E.
    cases k Hk; try (exfalso; apply N; reflexivity); clear N; force A B C.
  Qed.
  (** the second body's force in y is off by this much *)
  Lemma tb_force_9 : forall t y (s s' : St) v, length y = 12%nat -> apart y -> f_fun (three_body m1 m2 m3) t y s = (s', Ok v) ->
    let dx := ventry y 4 - ventry y 2 in let dy := ventry y 5 - ventry y 3 in
    derivable_pt_lim (fun u => tb_pot (list_set y 3 u)) (ventry y 3)
      (- (ventry v 9 - m2 * m3 * (dx - dy) / (sqrt (dx * dx + dy * dy) * (dx * dx + dy * dy)))).
  Proof.
    intros t y s s' v H (A & B & C) E. cbv zeta. openv y H. opened H A B C E. force A B C.
  Qed.

  (** half the sum of the squared momenta *)
  Lemma tb_kin : forall y, length y = 12%nat -> three_body_kin y = Ok (Rsum 6 (fun k => ventry y (6 + k) * ventry y (6 + k)) / 2).
  Proof. intros y H. openv y H. cbn. f_equal. unfold ventry. cbn. unfold Rlit, Z.pow_pos; simpl. field. Qed.
End ThreeBody.
