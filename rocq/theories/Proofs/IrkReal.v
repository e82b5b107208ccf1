(** The stage equations of the implicit integrator over the reals. *)
From Coq Require Import Reals Lra.
From Verif Require Import Model.Base Model.Scalar Model.LinAlg Model.Newton Model.Enums Model.Options Model.Coeffs Model.Irk.
From Verif Require Import Spec.Sums Spec.Trees Spec.Observe Spec.ErkSpec Spec.NewtonSpec Spec.IrkSpec.
From Verif Require Import Proofs.LoopProofs Proofs.SumsProofs Proofs.ErkProofs Proofs.NewtonProofs Proofs.RVec Proofs.IrkProofs.
Local Open Scope R_scope.

(** ** Indices of stacked vectors *)
Lemma Rsum_blocks s n f : Rsum (n * s) f = Rsum s (fun i => Rsum n (fun p => f (n * i + p)%nat)).
Proof.
  induction s as [|s IH]; [rewrite Nat.mul_0_r; reflexivity|]. replace (n * S s)%nat with (n * s + n)%nat by lia.
  rewrite Rsum_add, IH. reflexivity.
Qed.
Lemma nth_flat_map {A B} (f : A -> list B) l m j q d d0 : (forall x, In x l -> length (f x) = m) -> (q < m)%nat -> (j < length l)%nat ->
  nth (m * j + q) (flat_map f l) d = nth q (f (nth j l d0)) d.
Proof.
  revert j. induction l as [|a l IH]; intros j Hm Hq Hj; [simpl in Hj; lia|]. cbn [flat_map]. destruct j as [|j].
  - rewrite Nat.mul_0_r. cbn [Nat.add nth]. apply app_nth1. rewrite Hm by (left; reflexivity). exact Hq.
  - rewrite app_nth2 by (rewrite Hm by (left; reflexivity); lia). rewrite (Hm a) by (left; reflexivity).
    replace (m * S j + q - m)%nat with (m * j + q)%nat by lia. cbn [nth]. apply IH; [intros x Hx; apply Hm; right; exact Hx|exact Hq|simpl in Hj; lia].
Qed.
Lemma flat_map_len {A B} (f : A -> list B) l m : (forall x, length (f x) = m) -> length (flat_map f l) = (length l * m)%nat.
Proof. intros Hm. induction l as [|a l IH]; [reflexivity|]. cbn [flat_map length]. rewrite app_length, Hm, IH. reflexivity. Qed.
Lemma kron_entry A B i p j q : mat_wf A -> mat_wf B -> (i < nrows A)%nat -> (p < nrows B)%nat -> (j < ncols A)%nat -> (q < ncols B)%nat ->
  mentry (kron A B) (nrows B * i + p) (ncols B * j + q) = mentry A i j * mentry B p q.
Proof.
  intros HA HB Hi Hp Hj Hq. unfold mentry at 1. unfold kron. cbn [mcols].
  rewrite (nth_flat_map _ (mcols A) (ncols B) j q [] []).
  2: { intros x _. rewrite map_length. reflexivity. }
  2: exact Hq.
  2: exact Hj.
  rewrite (nth_indep _ [] (flat_map (fun a : R => vscale a []) (nth j (mcols A) []))) by (rewrite map_length; exact Hq).
  rewrite (map_nth (fun cb => flat_map (fun a => vscale a cb) (nth j (mcols A) [])) (mcols B) [] q).
  rewrite (nth_flat_map _ (nth j (mcols A) []) (nrows B) i p 0 0).
  - fold (ventry (vscale (nth i (nth j (mcols A) []) 0) (nth q (mcols B) [])) p). rewrite ventry_vscale. reflexivity.
  - intros x _. rewrite vscale_length. apply wf_col; assumption.
  - exact Hp.
  - rewrite wf_col by assumption. exact Hi.
Qed.
Lemma kron_at A B i p j q r c : nrows B = r -> ncols B = c -> mat_wf A -> mat_wf B -> (i < nrows A)%nat -> (p < r)%nat -> (j < ncols A)%nat -> (q < c)%nat ->
  mentry (kron A B) (r * i + p) (c * j + q) = mentry A i j * mentry B p q.
Proof. intros <- <-. apply kron_entry. Qed.
Lemma block_index n i j p q : (p < n)%nat -> (q < n)%nat -> (n * i + p = n * j + q)%nat -> i = j /\ p = q.
Proof. intros Hp Hq E. exact (Nat.div_mod_unique n i j p q Hp Hq E). Qed.
Lemma nth_firstn_lt {A} (d : A) q : forall n l, (q < n)%nat -> nth q (firstn n l) d = nth q l d.
Proof. induction q as [|q IH]; intros [|n] [|a l] Hq; try lia; try reflexivity. simpl. apply IH. lia. Qed.
Lemma ventry_block n j Y q : (q < n)%nat -> ventry (block n j Y) q = ventry Y (n * j + q).
Proof.
  intros Hq. unfold ventry, block. rewrite <- (firstn_skipn (n * j) Y) at 2.
  destruct (le_lt_dec (length Y) (n * j)) as [H|H].
  - rewrite skipn_all2 by exact H. rewrite firstn_nil. rewrite app_nil_r, nth_overflow by (simpl; lia). symmetry. apply nth_overflow. rewrite firstn_length. lia.
  - rewrite app_nth2 by (rewrite firstn_length; lia). rewrite firstn_length, Nat.min_l by lia. replace (n * j + q - n * j)%nat with q by lia.
    apply nth_firstn_lt. exact Hq.
Qed.

Section Real.
  Context {LA : LinAlg R} {HP : ExactProducts LA} {HE : Env R} {St : Type}.
  Variables (F : functor R St) (y : list R) (t dt : R) (sc : solver_coeffs R).
  Let n := length y.
  Let s := length (sc_b sc).
  Hypothesis HAr : nrows (sc_A sc) = s.
  Hypothesis HAc : ncols (sc_A sc) = s.
  Hypothesis HAw : mat_wf (sc_A sc).
  Variable f : R -> list R -> list R.
  Hypothesis Hf : computes F f.
  Let a := mentry (sc_A sc).
  Let c := ventry (sc_c sc).

  Lemma arg_point Y j : length (block n j Y) = n -> stage_arg y Y j = stage_point n y Y j.
  Proof.
    intros Hl. unfold stage_arg. fold n. apply vec_ext.
    - rewrite zipwith_length by (fold n; auto). unfold stage_point. rewrite vtab_length. reflexivity.
    - intros i Hi. rewrite zipwith_length in Hi by (fold n; auto). fold n in Hi. rewrite ventry_zip; [|fold n; auto|simpl; ring].
      unfold stage_point. rewrite ventry_vt by exact Hi. rewrite ventry_block by exact Hi. reflexivity.
  Qed.

  Lemma kron_eye_mv V i p : length V = (s * n)%nat -> (i < s)%nat -> (p < n)%nat ->
    la_mv (kron (sc_A sc) (eye n)) V (n * i + p) = Rsum s (fun j => a i j * ventry V (n * j + p)).
  Proof.
    intros HV Hi Hp.
    assert (Er : nrows (eye (T := R) n) = n) by apply mtab_nrows. assert (Ec : ncols (eye (T := R) n) = n) by apply mtab_ncols.
    rewrite exact_mv.
    - assert (Ek : ncols (kron (sc_A sc) (eye n)) = (n * s)%nat) by (rewrite kron_ncols, HAc, Ec; lia). rewrite Ek, Rsum_blocks.
      apply Rsum_ext. intros j Hj.
      rewrite (Rsum_ext n _ (fun q => delta p q * (a i j * ventry V (n * j + q)))).
      + apply (delta_sum n p (fun q => a i j * ventry V (n * j + q)) Hp).
      + intros q Hq. rewrite (kron_at _ _ _ _ _ _ n n Er Ec); [|exact HAw|apply mtab_wf|rewrite HAr; exact Hi|exact Hp|rewrite HAc; exact Hj|exact Hq].
        rewrite mentry_eye by assumption. unfold a. ring.
    - rewrite kron_nrows, HAr, Er. nia.
    - rewrite kron_ncols, HAc, Ec. exact HV.
  Qed.

  Lemma concat_entry (vals : list (list R)) j p : (forall k, (k < length vals)%nat -> length (nth k vals []) = n) -> (j < length vals)%nat -> (p < n)%nat ->
    ventry (concat vals) (n * j + p) = ventry (nth j vals []) p.
  Proof.
    intros Hl Hj Hp. unfold ventry. replace (concat vals) with (flat_map (fun x => x) vals) by (rewrite flat_map_concat_map, map_id; reflexivity).
    apply (nth_flat_map (fun x => x)); [|exact Hp|exact Hj]. intros x Hx. destruct (In_nth vals x [] Hx) as (k & Hk & <-). apply Hl, Hk.
  Qed.

  (** the residual the code computes is the defect of the stage equations *)
  Lemma residual_defect Y R : is_residual F y t dt sc Y R -> length R = (s * n)%nat /\ length Y = (s * n)%nat /\
    (forall i p, (i < s)%nat -> (p < n)%nat -> ventry R (n * i + p) = stage_defect n s a c f t dt y Y i p) /\
    (forall j, (j < s)%nat -> length (stage_slope n c f t dt y Y j) = n).
  Proof.
    intros (vals & L1 & L2 & L3 & L4 & -> & L5). fold n in L2, L3, L4, L5. fold s in L1, L2, L3, L4, L5. split; [exact L5|]. split; [exact L3|].
    assert (Lb : forall j, (j < s)%nat -> length (block n j Y) = n).
    { intros j Hj. unfold block. rewrite firstn_length, skipn_length, L3. nia. }
    assert (Hv : forall j, (j < s)%nat -> nth j vals [] = stage_slope n c f t dt y Y j).
    { intros j Hj. destruct (L2 j Hj) as (_ & s1 & s2 & E). unfold stage_slope. rewrite <- (arg_point Y j (Lb j Hj)).
      apply (Hf _ _ s1). unfold stage_time in E. cbn in E. unfold c, ventry. rewrite E. reflexivity. }
    split.
    - intros i p Hi Hp. unfold residual_of, stage_defect. fold n. rewrite HAr.
      rewrite ventry_zip; [|rewrite vscale_length, vtab_length; exact L3|simpl; ring]. rewrite ventry_vscale. rewrite ventry_vt by nia.
      rewrite kron_eye_mv; [|rewrite (concat_length_const _ n); [rewrite L1; apply Nat.mul_comm|]|exact Hi|exact Hp].
      + cbn [ssub RScalar]. do 2 f_equal. apply Rsum_ext. intros j Hj. rewrite concat_entry; [|intros k Hk; apply L2; lia|lia|exact Hp].
        rewrite Hv by exact Hj. reflexivity.
      + apply Forall_forall. intros x Hx. destruct (In_nth vals x [] Hx) as (k & Hk & <-). apply L2. lia.
    - intros j Hj. rewrite <- Hv by exact Hj. apply L2, Hj.
  Qed.
  Lemma residual_norm Y R : is_residual F y t dt sc Y R -> la_dot R R = defect_norm2 n s a c f t dt y Y.
  Proof.
    intros HR. destruct (residual_defect Y R HR) as (LR & LY & E & _). rewrite exact_dot by reflexivity. rewrite LR, Nat.mul_comm, Rsum_blocks. unfold defect_norm2.
    apply Rsum_ext. intros i Hi. apply Rsum_ext. intros p Hp. rewrite E by assumption. reflexivity.
  Qed.

  (** the matrix of the iteration *)
  Lemma stage_matrix_R J M : stage_matrix y dt sc J = Ok M -> mat_wf J -> nrows J = n -> ncols J = n -> is_stage_matrix n s a dt J M /\ mat_wf M.
  Proof.
    unfold stage_matrix, msub. fold n s. destruct (msame _ _) eqn:Em; [|discriminate]. intros [= <-] HJ HJr HJc.
    unfold msame in Em. apply andb_true_iff in Em. rewrite !Nat.eqb_eq in Em. destruct Em as [Em1 Em2].
    assert (Er : nrows (eye (T := R) (s * n)) = (s * n)%nat) by apply mtab_nrows. assert (Ec : ncols (eye (T := R) (s * n)) = (s * n)%nat) by apply mtab_ncols.
    assert (Wk : mat_wf (kron (sc_A sc) J)).
    { unfold mat_wf, kron. cbn [mcols nrows]. apply Forall_forall. intros x Hx. apply in_flat_map in Hx. destruct Hx as (ca & Hca & Hx).
      apply in_map_iff in Hx. destruct Hx as (cb & <- & Hcb). unfold mat_wf in HAw, HJ. rewrite Forall_forall in HAw, HJ.
      rewrite (flat_map_len _ _ (nrows J)); [rewrite (HAw ca Hca); reflexivity|]. intros x. rewrite vscale_length. apply HJ, Hcb. }
    assert (Ez : forall i j, (i < s * n)%nat -> (j < s * n)%nat -> mentry (mzip ssub (eye (s * n)) (mscale dt (kron (sc_A sc) J))) i j =
                  mentry (eye (s * n)) i j - dt * mentry (kron (sc_A sc) J) i j).
    { intros i j Hi Hj. unfold mzip. unfold mentry at 1. cbn [mcols].
      assert (Lk : length (mcols (kron (sc_A sc) J)) = (s * n)%nat) by (change (ncols (kron (sc_A sc) J) = (s * n)%nat); rewrite kron_ncols, HAc, HJc; reflexivity).
      rewrite (nth_indep _ [] (zipwith ssub (fst (@nil R, @nil R)) (snd (@nil R, @nil R)))) by (rewrite map_length, combine_length; unfold mscale; cbn [mcols]; rewrite map_length, Lk; unfold ncols in Ec; lia).
      rewrite (map_nth (fun q => zipwith ssub (fst q) (snd q))). rewrite combine_nth by (unfold mscale; cbn [mcols]; rewrite map_length, Lk; exact Ec). cbn [fst snd].
      fold (ventry (zipwith ssub (nth j (mcols (eye (s * n))) []) (nth j (mcols (mscale dt (kron (sc_A sc) J))) [])) i).
      unfold mscale. cbn [mcols]. rewrite (nth_indep (map (vscale dt) (mcols (kron (sc_A sc) J))) [] (vscale dt [])) by (rewrite map_length, Lk; exact Hj). rewrite (map_nth (vscale dt)).
      rewrite ventry_zip; [|rewrite vscale_length, !wf_col; [rewrite Er, kron_nrows, HAr, HJr; reflexivity|exact Wk|unfold ncols; rewrite Lk; exact Hj|apply mtab_wf|rewrite Ec; exact Hj]|simpl; ring].
      rewrite ventry_vscale. reflexivity. }
    split.
    - split; [cbn [mzip nrows]; rewrite Er; lia|]. split.
      + unfold ncols, mzip. cbn [mcols]. rewrite map_length, combine_length. change (length (mcols (mscale dt (kron (sc_A sc) J)))) with (ncols (mscale dt (kron (sc_A sc) J))).
        rewrite <- Em2. change (length (mcols (eye (T := R) (s * n)))) with (ncols (eye (T := R) (s * n))). rewrite Ec. lia.
      + intros i p j q Hi Hp Hj Hq. rewrite Ez by nia. rewrite mentry_eye by nia.
        rewrite (kron_at _ _ _ _ _ _ n n HJr HJc); [|exact HAw|exact HJ|lia|lia|lia|lia]. fold a. f_equal.
        unfold delta. destruct (Nat.eq_dec (n * i + p) (n * j + q)) as [E|E].
        * destruct (block_index n i j p q Hp Hq E) as [-> ->]. destruct (Nat.eq_dec j j); [|congruence]. destruct (Nat.eq_dec q q); [ring|congruence].
        * destruct (Nat.eq_dec i j) as [->|]; [|ring]. destruct (Nat.eq_dec p q) as [->|]; [congruence|ring].
    - unfold mat_wf, mzip. cbn [mcols nrows]. rewrite Er. apply Forall_forall. intros x Hx. apply in_map_iff in Hx. destruct Hx as ([u v] & <- & Hx). cbn [fst snd].
      pose proof (in_combine_l _ _ _ _ Hx) as Hu. pose proof (in_combine_r _ _ _ _ Hx) as Hv. unfold mscale in Hv. cbn [mcols] in Hv. apply in_map_iff in Hv. destruct Hv as (v' & <- & Hv).
      assert (Lu : length u = (s * n)%nat). { pose proof (mtab_wf (s * n) (s * n) (fun i j => if (i =? j)%nat then sZ (T := R) 1 else sZ 0)) as Hw. unfold mat_wf in Hw. rewrite Forall_forall in Hw. apply Hw, Hu. }
      assert (Lv : length v' = (s * n)%nat). { unfold mat_wf in Wk. rewrite Forall_forall in Wk. rewrite (Wk v' Hv), kron_nrows, HAr, HJr. reflexivity. }
      rewrite zipwith_length; [exact Lu|]. rewrite vscale_length. congruence.
  Qed.

  (** ** The increment *)
  Lemma is_sol_mul A x b : is_solution A x b -> forall i, (i < nrows A)%nat -> Rsum (ncols A) (fun j => mentry A i j * ventry x j) = ventry b i.
  Proof. intros (_ & _ & E). exact E. Qed.
  Lemma plu_solve {HLU : ExactLU LA} A r d : invertible A -> length r = nrows A -> stage_increment true A (lu_or_reset A) r = Ok d -> is_solution A d (vopp r).
  Proof.
    intros HA Lr Hi. destruct (exact_lu A HA) as (l & u & p & El & HPi & HPA & HL & HU). destruct HA as (B & Hsq & _).
    unfold stage_increment, lu_or_reset in Hi. rewrite El, <- Hsq, Nat.min_id in Hi. set (N := nrows A) in * .
    set (L := mtab N N l) in * . set (U := mtab N N u) in * . set (P := mtab N N p) in * .
    destruct (mv P r) as [PR|] eqn:E1; [|discriminate]. cbn [rbind] in Hi. apply mv_R in E1. destruct E1 as (_ & L1 & E1).
    assert (nP : nrows P = N) by apply mtab_nrows. assert (cP : ncols P = N) by apply mtab_ncols. rewrite nP in L1, E1.
    assert (nL : nrows (mneg L) = N) by (cbn [mneg nrows]; apply mtab_nrows).
    assert (cL : ncols (mneg L) = N) by (unfold ncols, mneg; cbn [mcols]; rewrite map_length; apply (mtab_ncols N N)).
    assert (nU : nrows U = N) by apply mtab_nrows. assert (cU : ncols U = N) by apply mtab_ncols.
    unfold trisolve in Hi. rewrite nL, cL, L1, Nat.eqb_refl in Hi. cbn [andb] in Hi.
    destruct (HL PR L1) as (x & Ex & Sx). rewrite Ex in Hi. cbn [rbind] in Hi. rewrite nU, cU, vtab_length, Nat.eqb_refl in Hi. cbn [andb] in Hi.
    destruct (HU (vtab N x) (vtab_length _ _)) as (z & Ez & Sz). rewrite Ez in Hi. injection Hi as <-.
    set (tmp := vtab N x) in * . set (dd := vtab N z) in * .
    assert (EL : forall i, (i < N)%nat -> Rsum N (fun k => mentry L i k * ventry tmp k) = - ventry PR i).
    { intros i Hi. rewrite <- (is_sol_mul _ _ _ Sx) by (rewrite nL; exact Hi). rewrite cL. rewrite <- Rsum_opp. apply Rsum_ext. intros k Hk.
      unfold mneg, mentry. cbn [mcols]. rewrite (nth_indep (map vneg (mcols L)) [] (vneg [])) by (rewrite map_length; change (k < ncols L)%nat; unfold L; rewrite mtab_ncols; exact Hk). rewrite (map_nth vneg).
      fold (ventry (vneg (nth k (mcols L) [])) i). rewrite ventry_vneg. unfold ventry. ring. }
    assert (EU : forall k, (k < N)%nat -> Rsum N (fun j => mentry U k j * ventry dd j) = ventry tmp k).
    { intros k Hk. rewrite <- (is_sol_mul _ _ _ Sz) by (rewrite nU; exact Hk). rewrite cU. reflexivity. }
    (* P (A d) = -(P r) *)
    assert (EP : forall i, (i < N)%nat -> Rsum N (fun k => mentry P i k * Rsum N (fun j => mentry A k j * ventry dd j)) = - ventry PR i).
    { intros i Hi. rewrite <- EL by exact Hi.
      rewrite (Rsum_ext N _ (fun k => Rsum N (fun j => mentry P i k * mentry A k j * ventry dd j))) by (intros k Hk; rewrite <- Rsum_scal; apply Rsum_ext; intros; ring).
      rewrite Rsum_swap.
      rewrite (Rsum_ext N (fun k => mentry L i k * ventry tmp k) (fun k => Rsum N (fun j => mentry L i k * mentry U k j * ventry dd j))) by (intros k Hk; rewrite <- EU by exact Hk; rewrite <- Rsum_scal; apply Rsum_ext; intros; ring).
      rewrite (Rsum_swap N N (fun k j => mentry L i k * mentry U k j * ventry dd j)). apply Rsum_ext. intros j Hj.
      rewrite (Rsum_ext N _ (fun k => ventry dd j * (mentry P i k * mentry A k j))) by (intros; ring). rewrite (Rsum_scal N (ventry dd j) (fun k => mentry P i k * mentry A k j)).
      rewrite (Rsum_ext N (fun k => mentry L i k * mentry U k j * ventry dd j) (fun k => ventry dd j * (mentry L i k * mentry U k j))) by (intros; ring). rewrite (Rsum_scal N (ventry dd j) (fun k => mentry L i k * mentry U k j)).
      rewrite HPA by assumption. reflexivity. }
    assert (S1 : is_solution P (vtab N (fun k => Rsum N (fun j => mentry A k j * ventry dd j))) (vopp PR)).
    { split; [rewrite cP; apply vtab_length|]. split; [rewrite nP, vopp_length; exact L1|]. rewrite nP, cP. intros i Hi. rewrite ventry_vopp, <- EP by exact Hi.
      apply Rsum_ext. intros k Hk. rewrite ventry_vt by exact Hk. reflexivity. }
    assert (S2 : is_solution P (vopp r) (vopp PR)).
    { split; [rewrite cP, vopp_length; exact Lr|]. split; [rewrite nP, vopp_length; exact L1|]. rewrite nP, cP. intros i Hi. rewrite ventry_vopp, E1 by exact Hi. rewrite cP, <- Rsum_opp.
      apply Rsum_ext. intros k Hk. rewrite ventry_vopp. ring. }
    pose proof (solution_unique P _ _ _ HPi S1 S2) as E.
    split; [unfold dd; rewrite vtab_length; exact Hsq|]. split; [rewrite vopp_length; exact Lr|]. fold N. rewrite <- Hsq. intros i Hi.
    rewrite <- E, ventry_vt by exact Hi. reflexivity.
  Qed.
End Real.
