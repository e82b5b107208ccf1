(** Explicit runs do not depend on the units, signs and order of the variables (C125). *)
From Coq Require Import Reals Lra Permutation.
From Verif Require Import Model.Base Model.Scalar Model.LinAlg Model.Enums Model.Options Model.Coeffs Model.ErkCoeffs Model.Erk.
From Verif Require Import Spec.Sums Spec.Units Proofs.SumsProofs Proofs.LoopProofs Proofs.RelProofs Proofs.ErkProofs Proofs.ErkReal.
From Verif Require Import Spec.Observe Spec.ErkSpec Spec.Methods Proofs.ExactInstance Proofs.ErkExamples.
Local Open Scope R_scope.

(** ** sums and folds *)
Lemma Rsum_fold n f : Rsum n f = fold_right Rplus 0 (map f (seq 0 n)).
Proof.
  induction n as [|n IH]; [reflexivity|]. rewrite seq_S, map_app, fold_right_app. cbn [Rsum map fold_right plus]. rewrite IH.
  generalize (map f (seq 0 n)) as l. induction l as [|x l IHl]; simpl; [ring|]. rewrite <- IHl. ring.
Qed.
Lemma fold_perm l l' : Permutation l l' -> fold_right Rplus 0 l = fold_right Rplus 0 l'.
Proof. induction 1; simpl; try lra. Qed.
Lemma Rsum_reorder n pi f : reorders n pi -> Rsum n (fun q => f (pi q)) = Rsum n f.
Proof.
  intros [H1 H2]. rewrite !Rsum_fold. apply fold_perm. rewrite <- (map_map pi f). apply Permutation_map. apply NoDup_Permutation_bis.
  - assert (G : forall l, NoDup l -> (forall q, In q l -> (q < n)%nat) -> NoDup (map pi l)).
    { induction 1 as [|x l Hx Hl IH]; intros Hin; simpl; [constructor|]. constructor.
      - intros Hc. apply in_map_iff in Hc. destruct Hc as (z & Ez & Hz). apply Hx. rewrite <- (H2 z x); [exact Hz| | |exact Ez]; apply Hin; [right; exact Hz|left; reflexivity].
      - apply IH. intros q Hq. apply Hin. right. exact Hq. }
    apply G; [apply seq_NoDup|]. intros q Hq. apply in_seq in Hq. lia.
  - rewrite map_length, seq_length. lia.
  - intros q Hq. apply in_map_iff in Hq. destruct Hq as (p & <- & Hp). apply in_seq in Hp. apply in_seq. pose proof (H1 p ltac:(lia)). lia.
Qed.
Lemma mrel_foldM_seq {W1 W2 A B} (WR : W1 -> W2 -> Prop) (R : nat -> A -> B -> Prop) (b1 : nat -> A -> M W1 A) (b2 : nat -> B -> M W2 B) len :
  forall st a b, (forall i a b, (st <= i < st + len)%nat -> R i a b -> mrel WR (R (S i)) (b1 i a) (b2 i b)) -> R st a b ->
  mrel WR (R (st + len)%nat) (foldM b1 (seq st len) a) (foldM b2 (seq st len) b).
Proof.
  induction len as [|len IH]; intros st a b Hb Hr; cbn [seq foldM]; [rewrite Nat.add_0_r; apply mrel_ret; exact Hr|].
  eapply mrel_bind; [apply (Hb st); [lia|exact Hr]|]. intros a' b' Hr'. rewrite <- plus_n_Sm. apply (IH (S st)); [|exact Hr']. intros i a2 b2' Hi. apply Hb. lia.
Qed.
Lemma rrel_foldR {A B} (R : A -> B -> Prop) (b1 : nat -> A -> res A) (b2 : nat -> B -> res B) l : forall a b,
  (forall i a b, In i l -> R a b -> rrel R (b1 i a) (b2 i b)) -> R a b -> rrel R (foldR b1 l a) (foldR b2 l b).
Proof.
  induction l as [|x l IH]; intros a b Hb Hr; [exact Hr|]. cbn [foldR]. eapply rrel_bind; [apply Hb; [left; reflexivity|exact Hr]|].
  intros a' b' Hr'. apply IH; [|exact Hr']. intros i a2 b2' Hi. apply Hb. right. exact Hi.
Qed.

Lemma Rmin_scale c x y : 0 < c -> Rmin (c * x) (c * y) = c * Rmin x y.
Proof.
  intros Hc. unfold Rmin. destruct (Rle_dec (c * x) (c * y)) as [H|H], (Rle_dec x y) as [H'|H']; try reflexivity; exfalso.
  - apply H'. apply (Rmult_le_reg_l c); assumption.
  - apply H. apply Rmult_le_compat_l; lra.
Qed.

Section Units.
  Context {E : Env R} {L1 L2 : LinAlg R} {X1 : ExactProducts L1} {X2 : ExactProducts L2} {St : Type}.
  Local Notation W := (world R St).
  Variables (n : nat) (pi : nat -> nat) (u : nat -> R) (mu a s : R) (F G : functor R St).
  Hypotheses (Hpi : reorders n pi) (Hu : forall q, (q < n)%nat -> Rabs (u q) = mu) (Hmu : 0 < mu) (Ha : 0 < a).
  Hypothesis HG : restated n pi u a s F G.

  (** images: of states, and of slopes *)
  Notation img := (in_units n pi u).
  Definition simg (v : list R) : list R := map (fun x => x / a) (img v).
  Lemma img_length y : length (img y) = n.
  Proof. apply vtab_length. Qed.
  Lemma simg_length y : length (simg y) = n.
  Proof. unfold simg. rewrite map_length. apply img_length. Qed.
  Lemma img_entry y q : (q < n)%nat -> ventry (img y) q = u q * ventry y (pi q).
  Proof. intros Hq. unfold in_units, ventry at 1. apply (vtab_nth n (fun q => u q * ventry y (pi q))). exact Hq. Qed.
  Lemma simg_entry v q : (q < n)%nat -> ventry (simg v) q = u q * ventry v (pi q) / a.
  Proof.
    intros Hq. rewrite <- img_entry by exact Hq. unfold simg, ventry. rewrite (nth_indep _ 0 (0 / a)) by (rewrite map_length, img_length; exact Hq).
    rewrite (map_nth (fun x => x / a)). reflexivity.
  Qed.
  Definition vrel (x z : list R) : Prop := length x = n /\ z = img x.
  Definition krel (x z : list R) : Prop := length x = n /\ z = simg x.

  Lemma ext_entries x z : length x = n -> length z = n -> (forall q, (q < n)%nat -> ventry x q = ventry z q) -> x = z.
  Proof. intros Lx Lz H. apply (nth_ext _ _ 0 0); [congruence|]. intros q Hq. apply H. lia. Qed.
  Lemma zip_entry f x y q : length x = length y -> (q < length x)%nat -> ventry (zipwith f x y) q = f (ventry x q) (ventry y q).
  Proof. intros L Hq. rewrite (zipwith_vtab f x y 0 L). unfold ventry at 1. rewrite vtab_nth by exact Hq. reflexivity. Qed.
  Lemma scale_entry c x q : (q < length x)%nat -> ventry (vscale c x) q = c * ventry x q.
  Proof. intros Hq. rewrite vscale_vtab. unfold ventry at 1. rewrite vtab_nth by exact Hq. reflexivity. Qed.

  (** x + c k *)
  Lemma axpy_rel x z k l c : vrel x z -> krel k l -> rrel vrel (vadd x (vscale c k)) (vadd z (vscale (a * c) l)).
  Proof.
    intros [Lx ->] [Lk ->]. rewrite !vadd_ok by (rewrite ?vscale_length, ?img_length, ?simg_length; congruence). simpl. split.
    - rewrite zipwith_length; [exact Lx|rewrite vscale_length; congruence].
    - apply ext_entries; [rewrite zipwith_length; [apply img_length|rewrite vscale_length, img_length, simg_length; reflexivity]|apply img_length|].
      intros q Hq. pose proof (proj1 Hpi q Hq) as Hq'. rewrite img_entry by exact Hq. rewrite !zip_entry by (rewrite ?vscale_length, ?img_length, ?simg_length; congruence).
      rewrite !scale_entry by (rewrite ?simg_length, ?Lk; assumption). rewrite img_entry, simg_entry by exact Hq. simpl. field. lra.
  Qed.

  (** ** stages *)
  Variables (sc : solver_coeffs R).
  Let ns := length (sc_b sc).
  Definition Krel (i : nat) (K1 K2 : mat R) : Prop := mdim K1 n ns /\ mdim K2 n ns /\ forall j, (j < i)%nat -> nth j (mcols K2) [] = simg (nth j (mcols K1) []).
  Lemma Krel_le i i' K1 K2 : (i <= i')%nat -> Krel i' K1 K2 -> Krel i K1 K2.
  Proof. intros Hi (H1 & H2 & H3). repeat (split; [assumption|]). intros j Hj. apply H3. lia. Qed.
  Lemma mcol_rel i j K1 K2 : Krel i K1 K2 -> (j < i)%nat -> rrel krel (mcol K1 j) (mcol K2 j).
  Proof.
    intros (H1 & H2 & H3) Hj. destruct (le_lt_dec ns j) as [Hn|Hn].
    - assert (E0 : forall K : mat R, mdim K n ns -> mcol K j = Err (EThrow ELogic)). { intros K (_ & Lc & _). unfold mcol. rewrite (proj2 (nth_error_None _ _)); [reflexivity|lia]. }
      rewrite !E0 by assumption. reflexivity.
    - destruct (mcol_ok K1 n ns j H1 Hn) as [-> Lk]. destruct (mcol_ok K2 n ns j H2 Hn) as [-> _]. split; [exact Lk|]. apply H3. exact Hj.
  Qed.
  Lemma set_rel i j K1 K2 k l : Krel i K1 K2 -> krel k l -> rrel (fun A B => Krel i A B /\ ((j < i)%nat \/ j = i -> Krel (Nat.max i (S j)) A B)) (mset_col K1 j k) (mset_col K2 j l).
  Proof.
    intros (H1 & H2 & H3) [Lk ->].
    destruct (le_lt_dec ns j) as [Hn|Hn].
    - assert (E0 : forall (K : mat R) v, mdim K n ns -> mset_col K j v = Err (EThrow ELogic)). { intros K v (_ & Lc & _). unfold mset_col, ncols. rewrite (proj2 (Nat.ltb_ge _ _)); [reflexivity|lia]. }
      rewrite !E0 by assumption. reflexivity.
    - destruct (mset_col_ok K1 n ns j k H1 Hn Lk) as (A & EA). destruct (mset_col_ok K2 n ns j (simg k) H2 Hn (simg_length k)) as (B & EB). rewrite EA, EB. simpl.
      destruct (mset_col_dim _ _ _ _ _ _ H1 EA) as (D1 & _ & _ & C1). destruct (mset_col_dim _ _ _ _ _ _ H2 EB) as (D2 & _ & _ & C2).
      assert (Hc : forall q, (q < i)%nat \/ q = j -> nth q (mcols B) [] = simg (nth q (mcols A) [])).
      { intros q Hq. rewrite C1, C2, !list_set_nth by (destruct H1 as (_ & M1 & _), H2 as (_ & M2 & _); lia). destruct (q =? j)%nat eqn:Eq; [reflexivity|]. apply Nat.eqb_neq in Eq. apply H3. lia. }
      split; [split; [exact D1|split; [exact D2|intros q Hq; apply Hc; lia]]|]. intros Hj. split; [exact D1|]. split; [exact D2|]. intros q Hq. apply Hc. lia.
  Qed.
  Lemma stage_arg_rel y z dt i K1 K2 : vrel y z -> Krel i K1 K2 -> rrel vrel (erk_stage_arg sc y dt K1 i) (erk_stage_arg sc z (a * dt) K2 i).
  Proof.
    intros Hy HK. unfold erk_stage_arg. apply rrel_foldR; [|exact Hy]. intros j x x' Hj Hx. apply in_seq in Hj.
    destruct (mget (sc_A sc) i j) as [aij|e]; cbn [rbind]; [|reflexivity]. eapply rrel_bind; [apply (mcol_rel i); [exact HK|lia]|].
    intros k l Hk. replace (a * dt *. aij)%sc with (a * (dt * aij)) by (simpl; ring). apply axpy_rel; assumption.
  Qed.

  (** the file contents appended since the start *)
  Variables (o1 o2 : list (R * list R)).
  Definition tlines (l : list (R * list R)) : list (R * list R) := map (fun p => (a * fst p + s, img (snd p))) l.
  Definition wrel (w1 w2 : W) : Prop := w_st w1 = w_st w2 /\ exists l, w_out w1 = o1 ++ l /\ w_out w2 = o2 ++ tlines l.
  Lemma fun_rel t t' y z : t' = a * t + s -> vrel y z -> mrel wrel krel (in_world (T := R) (f_fun F t y)) (in_world (f_fun G t' z)).
  Proof.
    intros -> [Ly ->] w1 w2 (H1 & l & H2 & H3). unfold in_world. rewrite H1. pose proof (HG t y (w_st w2) Ly) as Hg.
    destruct (f_fun F t y (w_st w2)) as [st [v|e]].
    - destruct Hg as [Lv ->]. split; [split; [reflexivity|exists l; auto]|]. split; [exact Lv|reflexivity].
    - rewrite Hg. split; [split; [reflexivity|exists l; auto]|reflexivity].
  Qed.
  Lemma stages_rel t t' dt y z K1 K2 ev : t' = a * t + s -> vrel y z -> Krel (stage_iter_start sc) K1 K2 ->
    mrel wrel (fun A B => Krel (stage_iter_start sc + (ns - stage_iter_start sc)) (fst A) (fst B) /\ snd A = snd B)
      (erk_stages_loop F sc t dt y K1 ev) (erk_stages_loop G sc t' (a * dt) z K2 ev).
  Proof.
    intros Ht Hy HK. unfold erk_stages_loop. fold ns.
    apply (mrel_foldM_seq wrel (fun i (A B : mat R * nat) => Krel i (fst A) (fst B) /\ snd A = snd B)); [|split; [exact HK|reflexivity]].
    intros i [A e] [B e'] Hi [HAB He]. simpl in HAB, He. subst e'. unfold erk_stage.
    eapply mrel_bind; [apply mrel_lift, stage_arg_rel; eassumption|]. intros x x' Hx.
    eapply mrel_bind; [apply mrel_lift, rrel_eq; reflexivity|]. intros ci ? <-.
    eapply mrel_bind; [apply fun_rel; [rewrite Ht; simpl; ring|exact Hx]|]. intros k l Hk.
    eapply mrel_bind; [apply mrel_lift, (set_rel i i); eassumption|]. intros A' B' [_ HA]. apply mrel_ret. split; [|reflexivity]. simpl.
    specialize (HA (or_intror eq_refl)). rewrite Nat.max_r in HA by lia. exact HA.
  Qed.

  (** ** the error *)
  Lemma mv_rel i K1 K2 b : (ns <= i)%nat -> Krel i K1 K2 -> rrel krel (@mv R L1 K1 b) (@mv R L2 K2 b).
  Proof.
    intros Hi (D1 & D2 & H3). pose proof D1 as (R1 & C1 & F1). pose proof D2 as (R2 & C2 & F2). unfold mv, ncols. rewrite C1, C2.
    destruct (Nat.eqb_spec ns (length b)) as [Eb|]; [|reflexivity]. simpl. rewrite R1, R2. split; [apply vtab_length|].
    apply ext_entries; [apply vtab_length|apply simg_length|]. intros q Hq. pose proof (proj1 Hpi q Hq) as Hq'. rewrite simg_entry by exact Hq.
    unfold ventry at 1 2. rewrite !vtab_nth by assumption. rewrite !exact_mv by (unfold ncols; congruence || lia). unfold ncols. rewrite C1, C2.
    unfold Rdiv. rewrite <- Rsum_scal, <- Rsum_scal_r. apply Rsum_ext. intros j Hj. unfold mentry. rewrite H3 by lia.
    fold (ventry (simg (nth j (mcols K1) [])) q). rewrite simg_entry by exact Hq. unfold ventry. field. lra.
  Qed.
  Definition scaled_options (o : erk_options R) : erk_options R :=
    ErkOptions (eo_adaptive o) (eo_rel_tol o) (mu * eo_abs_tol o) (a * eo_max_dt o) (eo_max_steps o).
  Lemma err_tot_ok o y yn est : length yn = length y -> length est = length y ->
    erk_err_tot o y yn est = Ok (Rsum (length y) (fun q => (ventry est q / (eo_abs_tol o + eo_rel_tol o * Rmax (Rabs (ventry y q)) (Rabs (ventry yn q)))) ^ 2)).
  Proof.
    intros L2' L3. unfold erk_err_tot.
    match goal with |- foldR ?b _ _ = _ => set (body := b) end.
    assert (Gk : forall k, (k <= length y)%nat -> foldR body (seq 0 k) (slit 0 0) =
      Ok (Rsum k (fun q => (ventry est q / (eo_abs_tol o + eo_rel_tol o * Rmax (Rabs (ventry y q)) (Rabs (ventry yn q)))) ^ 2))).
    { induction k as [|k IH]; intros Hk; [simpl; f_equal; unfold Rlit; simpl; ring|]. rewrite seq_S, foldR_app, IH by lia. cbn [rbind foldR plus]. unfold body.
      rewrite (vget_ok est k 0), (vget_ok y k 0), (vget_ok yn k 0) by lia. cbn [rbind]. rewrite smax_R. cbn [Rsum]. f_equal. unfold ventry. simpl. ring. }
    apply Gk. lia.
  Qed.
  Lemma err_tot_rel o y z yn zn est est' : vrel y z -> vrel yn zn -> vrel est est' -> erk_err_tot (scaled_options o) z zn est' = erk_err_tot o y yn est.
  Proof.
    intros [Ly ->] [Lyn ->] [Le ->]. rewrite !err_tot_ok by (rewrite ?img_length; congruence). rewrite img_length, Ly. f_equal.
    rewrite <- (Rsum_reorder n pi (fun q => (ventry est q / (eo_abs_tol o + eo_rel_tol o * Rmax (Rabs (ventry y q)) (Rabs (ventry yn q)))) ^ 2) Hpi).
    apply Rsum_ext. intros q Hq. rewrite !img_entry by exact Hq. cbn [eo_abs_tol eo_rel_tol scaled_options]. rewrite !Rabs_mult, Hu by exact Hq.
    rewrite RmaxRmult by lra. unfold Rdiv.
    replace (mu * eo_abs_tol o + eo_rel_tol o * (mu * Rmax (Rabs (ventry y (pi q))) (Rabs (ventry yn (pi q))))) with (mu * (eo_abs_tol o + eo_rel_tol o * Rmax (Rabs (ventry y (pi q))) (Rabs (ventry yn (pi q))))) by ring.
    rewrite Rinv_mult. set (D := / (_ + _)). assert (E2 : u q * u q = mu * mu) by (rewrite <- (Hu q Hq), <- Rabs_mult; symmetry; apply Rabs_pos_eq; apply Rle_0_sqr).
    transitivity (u q * u q * (/ mu * / mu) * (ventry est (pi q) * D) ^ 2); [ring|]. rewrite E2. field. lra.
  Qed.
  Lemma new_dt_rel o mo err dt : erk_new_dt (scaled_options o) mo err (a * dt) = a * erk_new_dt o mo err dt.
  Proof.
    unfold erk_new_dt. cbn [eo_max_dt scaled_options]. rewrite !smin_R. set (e := spow _ _). cbn [sltb RScalar].
    assert (E1 : Rltb (sZ 0) (a * eo_max_dt o) = Rltb (sZ 0) (eo_max_dt o)).
    { change (sZ 0) with 0 at 1 2. unfold Rltb. destruct (Rlt_dec 0 (a * eo_max_dt o)) as [H|H], (Rlt_dec 0 (eo_max_dt o)) as [H'|H']; try reflexivity; exfalso.
      - apply H'. apply (Rmult_lt_reg_l a); [exact Ha|lra].
      - apply H. apply Rmult_lt_0_compat; assumption. }
    rewrite E1. simpl. destruct (Rltb 0 (eo_max_dt o)).
    - etransitivity; [|apply (Rmin_scale a _ _ Ha)]. f_equal. ring.
    - ring.
  Qed.

  (** ** the run *)
  Lemma control_rel o mo dt K1 K2 y z yn zn dy dz i : (ns <= i)%nat -> Krel i K1 K2 -> vrel y z -> vrel yn zn -> krel dy dz ->
    mrel wrel (fun A B => fst (fst (fst A)) = fst (fst (fst B)) /\ vrel (snd (fst (fst A))) (snd (fst (fst B))) /\ snd (fst A) = snd (fst B) /\ snd B = a * snd A)
      (@erk_control R RScalar L1 E St o sc mo dt K1 y yn dy) (@erk_control R RScalar L2 E St (scaled_options o) sc mo (a * dt) K2 z zn dz).
  Proof.
    intros Hi HK Hy Hyn Hdy. unfold erk_control.
    eapply mrel_bind; [apply mrel_lift, (mv_rel i); assumption|]. intros da db Hd.
    eapply mrel_bind with (R := krel).
    { apply mrel_lift. destruct Hd as [Ld ->], Hdy as [Ldy ->]. rewrite !vsub_ok by (rewrite ?simg_length; congruence). simpl. split; [rewrite zipwith_length; congruence|].
      apply ext_entries; [rewrite zipwith_length; rewrite !simg_length; reflexivity|apply simg_length|]. intros q Hq. pose proof (proj1 Hpi q Hq) as Hq'.
      rewrite simg_entry by exact Hq. rewrite !zip_entry by (rewrite ?simg_length; congruence). rewrite !simg_entry by exact Hq. simpl. field. lra. }
    intros d d' [Ld ->].
    assert (He : vrel (vscale dt d) (vscale (a * dt) (simg d))).
    { split; [rewrite vscale_length; exact Ld|]. apply ext_entries; [rewrite vscale_length; apply simg_length|apply img_length|]. intros q Hq. pose proof (proj1 Hpi q Hq) as Hq'.
      rewrite img_entry by exact Hq. rewrite !scale_entry by (rewrite ?simg_length; congruence). rewrite simg_entry by exact Hq. simpl. field. lra. }
    rewrite (err_tot_rel o y z yn zn _ _ Hy Hyn He).
    assert (Ln : length z = length y) by (destruct Hy as [Ly ->]; rewrite img_length; symmetry; exact Ly). rewrite Ln.
    eapply mrel_bind; [apply mrel_lift, rrel_eq; reflexivity|]. intros tot ? <-.
    eapply mrel_bind; [apply mrel_assert; reflexivity|]. intros ? ? _. apply mrel_ret. cbn [fst snd]. split; [reflexivity|]. split; [exact He|]. split; [reflexivity|]. apply new_dt_rel.
  Qed.
  Lemma write_rel oo t t' y z : t' = a * t + s -> vrel y z -> mrel wrel eq (erk_write (St := St) oo t y) (erk_write oo t' z).
  Proof.
    intros -> [_ ->]. unfold erk_write. destruct (write_to_file oo); [|apply mrel_ret; reflexivity]. destruct (output_stream oo); [|apply mrel_fail].
    intros w1 w2 (H1 & l & H2 & H3). unfold write_line. split; [|reflexivity]. split; [exact H1|]. exists (l ++ [(t, y)]). simpl.
    rewrite H2, H3. unfold tlines. rewrite map_app, <- !app_assoc. split; reflexivity.
  Qed.
  Definition sol_rel (A B : erk_output R) : Prop :=
    eo_status B = eo_status A /\ eo_t_vals B = map (fun t => a * t + s) (eo_t_vals A) /\ eo_y_vals B = map (in_units n pi u) (eo_y_vals A) /\
    eo_err_est B = map (in_units n pi u) (eo_err_est A) /\ eo_err B = eo_err A /\ eo_accept_frac B = eo_accept_frac A /\
    eo_attempt B = eo_attempt A /\ eo_reject_err B = eo_reject_err A /\ eo_fun_evals B = eo_fun_evals A.
  Definition state_rel (A B : erk_state R) : Prop :=
    es_t B = a * es_t A + s /\ vrel (es_y A) (es_y B) /\ es_dt B = a * es_dt A /\ es_step B = es_step A /\ Krel (stage_iter_start sc) (es_Ks A) (es_Ks B) /\
    es_err B = es_err A /\ vrel (es_err_est A) (es_err_est B) /\ sol_rel (es_sol A) (es_sol B).
  Lemma Rltb_time x y : Rltb (a * x + s) (a * y + s) = Rltb x y.
  Proof.
    unfold Rltb. destruct (Rlt_dec (a * x + s) (a * y + s)) as [H|H], (Rlt_dec x y) as [H'|H']; try reflexivity; exfalso.
    - apply H'. apply (Rmult_lt_reg_l a); [exact Ha|lra].
    - apply H. assert (a * x < a * y) by (apply Rmult_lt_compat_l; assumption). lra.
  Qed.
  Lemma clip_rel t1 t dt : (if (a * t + s +. a * dt >?. a * t1 + s)%sc then (a * t1 + s -. (a * t + s))%sc else a * dt) = a * (if (t +. dt >?. t1)%sc then (t1 -. t)%sc else dt).
  Proof.
    change (sltb (Scalar := RScalar)) with Rltb. cbn [sadd ssub RScalar]. replace (a * t + s + a * dt) with (a * (t + dt) + s) by ring. rewrite Rltb_time.
    destruct (Rltb t1 (t + dt)); ring.
  Qed.
  Lemma start_le : (stage_iter_start sc <= 1)%nat.
  Proof. unfold stage_iter_start. destruct (sc_FSAL sc); lia. Qed.

  Lemma body_rel t1 o oo mo A B : state_rel A B -> mrel wrel (srel state_rel sol_rel)
    (@erk_body R RScalar L1 E St F t1 o sc oo mo A) (@erk_body R RScalar L2 E St G (a * t1 + s) (scaled_options o) sc oo mo B).
  Proof.
    intros (H1 & H2 & H3 & H4 & H5 & H6 & H7 & H8). unfold erk_body. rewrite H1, H3, clip_rel, H4. cbn [eo_max_steps eo_adaptive scaled_options].
    set (h := if (es_t A +. es_dt A >?. t1)%sc then (t1 -. es_t A)%sc else es_dt A).
    destruct H8 as (G1 & G2 & G3 & G4 & G5 & G6 & G7 & G8 & G9). rewrite G7, G8, G9, H6.
    destruct ((0 <=? eo_max_steps o)%Z && (eo_max_steps o <? es_step A)%Z).
    { apply mrel_ret. simpl. repeat split; simpl; assumption. }
    eapply mrel_bind; [apply stages_rel; [reflexivity|exact H2|exact H5]|]. intros [K1 e1] [K2 e2] [HK He]. cbn [fst snd] in HK, He. subst e2.
    set (i := (stage_iter_start sc + (ns - stage_iter_start sc))%nat) in * . assert (Hi : (ns <= i)%nat) by (unfold i; lia).
    eapply mrel_bind; [apply mrel_lift, (mv_rel i); assumption|]. intros dy dz Hd.
    eapply mrel_bind; [apply mrel_lift, axpy_rel; assumption|]. intros yn zn Hyn.
    eapply mrel_bind with (R := fun A B => fst (fst (fst A)) = fst (fst (fst B)) /\ vrel (snd (fst (fst A))) (snd (fst (fst B))) /\ snd (fst A) = snd (fst B) /\ snd B = a * snd A).
    { destruct (eo_adaptive o); [apply (control_rel _ _ _ _ _ _ _ _ _ _ _ i); assumption|]. apply mrel_ret. cbn [fst snd]. split; [reflexivity|]. split; [exact H7|]. split; reflexivity. }
    intros [[[err est] rej] nd] [[[err' est'] rej'] nd'] (R1 & R2 & R3 & R4). cbn [fst snd] in R1, R2, R3, R4. subst err' rej' nd'.
    eapply mrel_bind; [apply write_rel; [reflexivity|exact Hyn]|]. intros ? ? _. destruct rej.
    - apply mrel_ret. simpl. repeat (split; [first [assumption|reflexivity|exact H2]|]). split; [apply (Krel_le _ i); [unfold i; lia|exact HK]|]. split; [reflexivity|]. split; [exact R2|]. repeat split; simpl; assumption || reflexivity.
    - eapply mrel_bind with (R := Krel (stage_iter_start sc)).
      { apply mrel_lift. unfold fsal_hook. destruct (sc_FSAL sc) eqn:Ef.
        - eapply rrel_bind; [apply (mcol_rel i); [exact HK|]|].
          + fold ns. unfold i, stage_iter_start. rewrite Ef. lia.
          + intros k l Hk. pose proof (set_rel i 0 K1 K2 k l HK Hk) as Hs. destruct (mset_col K1 0 k), (mset_col K2 0 l); simpl in *; try contradiction; [|exact Hs].
            apply (Krel_le _ i); [unfold i; lia|]. apply Hs.
        - simpl. apply (Krel_le _ i); [unfold i; lia|exact HK]. }
      intros K1' K2' HK'. apply mrel_ret. simpl.
      assert (Et : a * es_t A + s + a * h = a * (es_t A + h) + s) by ring.
      repeat split; simpl; try assumption; try reflexivity; try apply Hyn; try apply HK'; try apply R2.
      + destruct (eo_adaptive o); reflexivity.
      + rewrite G2, map_app, Et. reflexivity.
      + rewrite G3, map_app. simpl. destruct Hyn as [_ ->]. reflexivity.
      + rewrite G4, map_app. simpl. destruct R2 as [_ ->]. reflexivity.
      + rewrite G5. reflexivity.
  Qed.
  Lemma zeros_rel : vrel (vzeros n) (vzeros n).
  Proof.
    split; [apply repeat_length|]. apply ext_entries; [apply repeat_length|apply img_length|]. intros q Hq. rewrite img_entry by exact Hq. unfold vzeros, ventry. rewrite !nth_repeat. simpl. unfold Rlit. simpl. ring.
  Qed.
  Lemma guts_rel t0 t1 o oo fuel y z dt : vrel y z -> mrel wrel sol_rel
    (@erk_guts R RScalar L1 E St F t1 o sc oo fuel t0 y dt) (@erk_guts R RScalar L2 E St G (a * t1 + s) (scaled_options o) sc oo fuel (a * t0 + s) z (a * dt)).
  Proof.
    intros Hy. unfold erk_guts. rewrite clip_rel. set (h := if (t0 +. dt >?. t1)%sc then (t1 -. t0)%sc else dt).
    assert (Ly : length y = n) by apply Hy. assert (Lz : length z = n) by (destruct Hy as [_ ->]; apply img_length). rewrite Ly, Lz.
    eapply mrel_bind.
    { apply mrel_assert with (b2 := (a * h >?. sZ 0)%sc). change (sltb (Scalar := RScalar)) with Rltb. change (sZ 0) with 0. unfold Rltb.
      destruct (Rlt_dec 0 h) as [H|H], (Rlt_dec 0 (a * h)) as [H'|H']; try reflexivity; exfalso; [apply H', Rmult_lt_0_compat; assumption|apply H, (Rmult_lt_reg_l a); [exact Ha|lra]]. }
    intros ? ? _. eapply mrel_bind; [apply mrel_lift, rrel_eq; reflexivity|]. intros mo ? <-.
    set (Kj := mtab n (length (sc_b sc)) (fun _ _ => junk)).
    assert (HKj : Krel 0 Kj Kj) by (split; [apply mtab_dim|split; [apply mtab_dim|intros; lia]]).
    assert (Hs0 : sol_rel (ErkOutput SUCCESS [t0] [y] [vectorise Kj] [vzeros n] [slit 0 0] None None 0 0 0) (ErkOutput SUCCESS [a * t0 + s] [z] [vectorise Kj] [vzeros n] [slit 0 0] None None 0 0 0)).
    { repeat split; simpl; [destruct Hy as [_ ->]; reflexivity|]. rewrite <- (proj2 zeros_rel). reflexivity. }
    eapply mrel_bind with (R := fun A B => Krel (stage_iter_start sc) (fst A) (fst B) /\ sol_rel (snd A) (snd B)).
    { unfold stage_iter_start. destruct (sc_FSAL sc).
      - eapply mrel_bind; [apply fun_rel; [reflexivity|exact Hy]|]. intros k l Hk. eapply mrel_bind; [apply mrel_lift, (set_rel 0 0); eassumption|]. intros K1 K2 [_ HK].
        apply mrel_ret. split; [exact (HK (or_intror eq_refl))|]. destruct Hs0 as (G1 & G2 & G3 & G4 & G5 & G6 & _). repeat split; assumption.
      - apply mrel_ret. split; [exact HKj|exact Hs0]. }
    intros [K1 s1] [K2 s2] [HK Hs]. cbn [fst snd] in HK, Hs.
    eapply mrel_bind with (R := srel state_rel sol_rel).
    { apply mrel_while.
      - intros A B (Ht & _). rewrite Ht. change (sltb (Scalar := RScalar)) with Rltb. symmetry. apply Rltb_time.
      - intros A B HAB _. apply body_rel, HAB.
      - repeat (split; [first [reflexivity|exact Hy|exact HK|exact zeros_rel]|]). exact Hs. }
    intros [A|A] [B|B] HAB; simpl in HAB; try contradiction; apply mrel_ret; [|exact HAB].
    destruct HAB as (_ & _ & _ & H4 & _ & _ & _ & (G1 & G2 & G3 & G4 & G5 & G6 & G7 & G8 & G9)). rewrite H4, G7. repeat split; simpl; assumption || reflexivity.
  Qed.
End Units.

Lemma erk_units {E : Env R} {L1 L2 : LinAlg R} {X1 : ExactProducts L1} {X2 : ExactProducts L2} {St} n pi u mu a s (F G : functor R St) :
  reorders n pi -> (forall q, (q < n)%nat -> Rabs (u q) = mu) -> 0 < mu -> 0 < a -> restated n pi u a s F G ->
  forall fuel t0 t1 y0 o oo m dt st, length y0 = n ->
  match @erk_odeint R RScalar L1 E St fuel F t0 t1 y0 o oo m dt (World st []),
        @erk_odeint R RScalar L2 E St fuel G (a * t0 + s) (a * t1 + s) (in_units n pi u y0) (options_in_units mu a o) oo m (a * dt) (World st []) with
  | (w1, Ok A), (w2, Ok B) =>
      eo_t_vals B = map (fun t => a * t + s) (eo_t_vals A) /\ eo_y_vals B = map (in_units n pi u) (eo_y_vals A) /\
      eo_err_est B = map (in_units n pi u) (eo_err_est A) /\ eo_err B = eo_err A /\ eo_status B = eo_status A /\
      eo_accept_frac B = eo_accept_frac A /\ eo_attempt B = eo_attempt A /\ eo_reject_err B = eo_reject_err A /\ eo_fun_evals B = eo_fun_evals A /\
      w_st w2 = w_st w1 /\ w_out w2 = map (fun p => (a * fst p + s, in_units n pi u (snd p))) (w_out w1)
  | (w1, Err e1), (w2, Err e2) => e2 = e1 /\ w_st w2 = w_st w1 /\ w_out w2 = map (fun p => (a * fst p + s, in_units n pi u (snd p))) (w_out w1)
  | _, _ => False
  end.
Proof.
  intros Hpi Hu Hmu Ha HG fuel t0 t1 y0 o oo m dt st Hy.
  assert (Hw : wrel (St := St) n pi u a s [] [] (World st []) (World st [])) by (split; [reflexivity|exists []; split; reflexivity]).
  assert (H : mrel (wrel (St := St) n pi u a s [] []) (sol_rel n pi u a s) (@erk_odeint R RScalar L1 E St fuel F t0 t1 y0 o oo m dt)
    (@erk_odeint R RScalar L2 E St fuel G (a * t0 + s) (a * t1 + s) (in_units n pi u y0) (options_in_units mu a o) oo m (a * dt))).
  { unfold erk_odeint. eapply mrel_bind; [apply mrel_lift, rrel_eq; reflexivity|]. intros sc ? <-.
    eapply mrel_bind; [apply mrel_assert; reflexivity|]. intros ? ? _. cbn [eo_adaptive options_in_units].
    destruct (eo_adaptive o && (length (sc_b2 sc) =? 0)%nat); apply (guts_rel n pi u mu a s F G Hpi Hu Hmu Ha HG); split; auto. }
  specialize (H _ _ Hw).
  destruct (@erk_odeint R RScalar L1 E St fuel F t0 t1 y0 o oo m dt (World st [])) as [w1 [A|e1]],
    (@erk_odeint R RScalar L2 E St fuel G (a * t0 + s) (a * t1 + s) (in_units n pi u y0) (options_in_units mu a o) oo m (a * dt) (World st [])) as [w2 [B|e2]]; try contradiction.
  - destruct H as ((H1 & l & H2 & H3) & G1 & G2 & G3 & G4 & G5 & G6 & G7 & G8 & G9). simpl in H2, H3. rewrite H2, H3. auto 20.
  - destruct H as ((H1 & l & H2 & H3) & H4). simpl in H2, H3. rewrite H2, H3. auto.
Qed.

(** x' = cos(t) sin(y), y' = sin(x), from (1, 2); in other units the variables are (100 y, -100 x) and time is 1000 t + 5 *)
Definition un_f (t : R) (y : list R) : list R := [cos t * sin (ventry y 1); sin (ventry y 0)].
Definition un_g (t : R) (z : list R) : list R := [100 * sin (- ventry z 1 / 100) / 1000; - 100 * (cos ((t - 5) / 1000) * sin (ventry z 0 / 100)) / 1000].
Definition un_pi (q : nat) : nat := (1 - q)%nat.
Definition un_u (q : nat) : R := match q with O => 100 | _ => -100 end.
Lemma un_hypotheses : reorders 2 un_pi /\ (forall q, (q < 2)%nat -> Rabs (un_u q) = 100) /\ restated 2 un_pi un_u 1000 5 (exr_fun un_f) (exr_fun un_g) /\
  in_units 2 un_pi un_u [1; 2] = [200; -100].
Proof.
  split; [split; unfold un_pi; lia|]. split; [|split].
  - intros [|[|q]] Hq; [|simpl; unfold Rabs; destruct (Rcase_abs _); lra|lia]. simpl. unfold Rabs; destruct (Rcase_abs _); lra.
  - intros t y st Hy. split; [reflexivity|]. unfold exr_fun, pure_functor, f_fun, un_g, un_f, in_units, vtab, un_pi, un_u, ventry. simpl. repeat f_equal; field.
  - unfold in_units, vtab, un_pi, un_u, ventry. simpl. f_equal; [ring|]. f_equal. ring.
Qed.
Lemma un_runs m : In m explicit_embedded -> exists fuel w' sol,
  @erk_odeint R RScalar exact_LA (exr_E false) _ fuel (exr_fun un_f) 0 1 [1; 2] (exr_opts true) output_options_default m (1 / 4) (World tt []) = (w', Ok sol).
Proof.
  intros Hm. apply (exr_adaptive false un_f 1); [exact Hm|discriminate|intros t y _; reflexivity|].
  intros t y q _. unfold un_f, ventry. destruct q as [|[|q]]; simpl.
  - rewrite Rabs_mult. pose proof (COS_bound t). pose proof (SIN_bound (nth 1 y 0)).
    assert (Rabs (cos t) <= 1) by (apply Rabs_le; lra). assert (Rabs (sin (nth 1 y 0)) <= 1) by (apply Rabs_le; lra).
    pose proof (Rabs_pos (cos t)). pose proof (Rabs_pos (sin (nth 1 y 0))). nra.
  - apply Rabs_le. pose proof (SIN_bound (nth 0 y 0)). lra.
  - destruct q; rewrite Rabs_R0; lra.
Qed.
