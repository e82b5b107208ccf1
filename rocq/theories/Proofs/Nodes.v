(** The nodes of all tableaux lie in [0,1]. *)
From Coq Require Import Reals Lra.
From Verif Require Import Model.Base Model.Scalar Model.LinAlg Model.Enums Model.Coeffs Model.Collocation Model.ErkCoeffs Model.IrkCoeffs.
Local Open Scope R_scope.

Lemma sqrt_between a lo hi : 0 <= lo -> 0 <= hi -> lo * lo <= a <= hi * hi -> lo <= sqrt a <= hi.
Proof.
  intros H1 H2 [H3 H4]. split; [rewrite <- (sqrt_square lo) by exact H1|rewrite <- (sqrt_square hi) by exact H2]; apply sqrt_le_1_alt; assumption.
Qed.
Lemma Ok_inj {A} (x y : A) : Ok x = Ok y -> y = x.
Proof. intros [= ->]. reflexivity. Qed.
Lemma rbind_inv {A B} (x : res A) (k : A -> res B) y : rbind x k = Ok y -> exists a, k a = Ok y.
Proof. destruct x as [a|]; [|discriminate]. intros H. exists a. exact H. Qed.
Ltac node' := cbn [slit sadd ssub smul sdiv sopp ssqrt RScalar]; unfold sqrt3, sqrt6, sqrt21; cbn [slit ssqrt RScalar]; unfold Rlit, Z.pow_pos; cbn [Pos.iter Z.mul Pos.mul Pos.add Z.pow];
  match goal with
  | |- context [sqrt 3] => pose proof (sqrt_between 3 1 2 ltac:(lra) ltac:(lra) ltac:(lra)); lra
  | |- context [sqrt 5] => pose proof (sqrt_between 5 2 3 ltac:(lra) ltac:(lra) ltac:(lra)); lra
  | |- context [sqrt 6] => pose proof (sqrt_between 6 2 3 ltac:(lra) ltac:(lra) ltac:(lra)); lra
  | |- context [sqrt 21] => pose proof (sqrt_between 21 4 5 ltac:(lra) ltac:(lra) ltac:(lra)); lra
  | _ => lra
  end.
Lemma Rlit_unit m e : (0 <=? m)%Z && (e <? 0)%Z && (m <=? 10 ^ (- e))%Z = true -> 0 <= Rlit m e <= 1.
Proof.
  intros H. apply andb_true_iff in H. destruct H as [H H3]. apply andb_true_iff in H. destruct H as [H1 H2]. apply Z.leb_le in H1, H3. apply Z.ltb_lt in H2.
  destruct e as [|e|e]; try lia. unfold Rlit. simpl Z.opp in H3. apply IZR_le in H1, H3. assert (0 < IZR (10 ^ Z.pos e)) by (apply IZR_lt; apply Z.pow_pos_nonneg; lia).
  split; [apply Rmult_le_pos; [exact H1|left; apply Rinv_0_lt_compat; assumption]|].
  apply Rmult_le_reg_r with (IZR (10 ^ Z.pos e)); [assumption|]. unfold Rdiv. rewrite Rmult_assoc, Rinv_l by lra. lra.
Qed.
Ltac node := cbn [slit RScalar]; first [apply Rlit_unit; vm_compute; reflexivity|node'].
Ltac table H := cbv zeta in H; try (apply rbind_inv in H; destruct H as [? H]); apply Ok_inj in H; rewrite H; cbn [sc_c]; clear H; repeat (apply Forall_cons; [node|]); apply Forall_nil.

Lemma irk_nodes (HE : Env R) m sc : irk_table (T := R) m = Ok sc -> Forall (fun c => 0 <= c <= 1) (sc_c sc).
Proof.
  unfold irk_table. intros Ht. repeat match type of Ht with (if ?b then _ else _) = _ => destruct b end.
  - unfold irk_implicit_euler in Ht. table Ht.
  - unfold irk_lobatto_iiia_43 in Ht. table Ht.
  - unfold irk_lobatto_iiic_43 in Ht. table Ht.
  - unfold irk_lobatto_iiic_64 in Ht. table Ht.
  - unfold irk_lobatto_iiic_85 in Ht. table Ht.
  - unfold irk_gauss_legendre_42 in Ht. table Ht.
  - unfold irk_radau_iia_32 in Ht. table Ht.
  - unfold irk_radau_iia_53 in Ht. table Ht.
  - unfold irk_radau_iia_95 in Ht. table Ht.
  - unfold irk_radau_iia_137 in Ht. table Ht.
  - unfold irk_gauss_legendre_147 in Ht. table Ht.
  - unfold irk_lobatto_iiia_127 in Ht. table Ht.
  - injection Ht as <-. constructor.
Qed.
Lemma erk_nodes m sc : erk_table (T := R) m = Ok sc -> Forall (fun c => 0 <= c <= 1) (sc_c sc).
Proof.
  unfold erk_table. intros Ht. repeat match type of Ht with (if ?b then _ else _) = _ => destruct b end.
  - unfold erk_explicit_euler in Ht. table Ht.
  - unfold erk_runge_kutta_4 in Ht. table Ht.
  - unfold erk_bogacki_shampine_32 in Ht. table Ht.
  - unfold erk_cash_karp_54 in Ht. table Ht.
  - unfold erk_dormand_prince_54 in Ht. table Ht.
  - unfold erk_fehlberg_54 in Ht. table Ht.
  - injection Ht as <-. constructor.
Qed.
