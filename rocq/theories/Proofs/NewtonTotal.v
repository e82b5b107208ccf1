(** newton_iterate and broyden_iterate always return on systems of matching dimensions. *)
From Verif Require Import Model.Base Model.Scalar Model.LinAlg Model.Newton Spec.Sums Spec.ErkSpec Spec.NewtonSpec
  Proofs.LoopProofs Proofs.SumsProofs Proofs.RVec Proofs.NewtonProofs.
Local Open Scope sc_scope.
Local Open Scope mon_scope.

Lemma while_returns {W S R} (cond : S -> bool) (body : S -> M W (S + R)) (I : W -> S -> Prop) (mu : S -> nat) :
  (forall w s, I w s -> cond s = true -> exists w' x, body s w = (w', Ok x) /\
     match x with inl s' => I w' s' /\ (mu s' < mu s)%nat | inr _ => True end) ->
  (forall s, cond s = true -> (0 < mu s)%nat) ->
  forall fuel s w, (mu s <= fuel)%nat -> I w s -> exists w' x, while cond body fuel s w = (w', Ok x).
Proof.
  intros Hb Hpos. induction fuel as [|f IH]; intros s w Hle HI; cbn [while]; destruct (cond s) eqn:E; try (do 2 eexists; reflexivity).
  - specialize (Hpos s E). lia.
  - destruct (Hb w s HI E) as (w1 & [s1|r1] & H1 & H2); rewrite (bind_run _ _ _ _ _ H1).
    + destruct H2 as [H2 H3]. apply IH; [lia|exact H2].
    + do 2 eexists; reflexivity.
Qed.

Section Total.
  Context {T : Type} {HS : Scalar T} {HL : LinAlg T} {HE : Env T} {St : Type} (F : nfunctor T St) (n : nat).
  Hypothesis Hf : forall y s, length y = n -> exists s' v, n_fun F y s = (s', Ok v) /\ length v = n.
  Hypothesis HJ : forall y s, length y = n -> exists s' A, n_jac F y s = (s', Ok A) /\ ncols A = n.

  Lemma limit_total m lam (d : list T) : exists d', limit_direction m lam d = Ok d' /\ length d' = length d.
  Proof.
    unfold limit_direction. destruct (m >?. sZ 0); [|eauto]. rewrite dot_self. simpl.
    destruct (_ >?. _); [|eauto]. eexists. split; [reflexivity|]. unfold vscale. apply map_length.
  Qed.
  Lemma zip_length (f : T -> T -> T) x y : length x = length y -> length (zipwith f x y) = length x.
  Proof. intros H. unfold zipwith. rewrite map_length, combine_length, H. apply Nat.min_id. Qed.
  Lemma vadd_len (x y : list T) : length x = length y -> exists z, vadd x y = Ok z /\ length z = length x.
  Proof. intros E. unfold vadd. apply Nat.eqb_eq in E as E'. rewrite E'. eexists; split; [reflexivity|apply zip_length, E]. Qed.
  Lemma vsub_len (x y : list T) : length x = length y -> exists z, vsub x y = Ok z /\ length z = length x.
  Proof. intros E. unfold vsub. apply Nat.eqb_eq in E as E'. rewrite E'. eexists; split; [reflexivity|apply zip_length, E]. Qed.
  Lemma mv_len A (x : list T) : length x = ncols A -> exists z, mv A x = Ok z /\ length z = nrows A.
  Proof. intros E. unfold mv. rewrite E, Nat.eqb_refl. eexists; split; [reflexivity|apply vtab_length]. Qed.

  (** the [try] block either gives a direction of the right length or throws something that is caught *)
  Lemma direction_cases rj pc J LUP (r : list T) :
    ncols J = n -> (exists d LUP', newton_direction rj pc n J LUP r = Ok (d, LUP') /\ (store_LU rj = false -> length d = n)) \/
                   (exists e, newton_direction rj pc n J LUP r = Err (EThrow e)).
  Proof.
    intros HJn. unfold newton_direction. destruct LUP as [[L U] P].
    assert (Hs : forall A (b : list T), (exists d, solve A b = Ok d /\ length d = ncols A) \/ exists e, solve A b = Err (EThrow e)).
    { intros A b. unfold solve. destruct (_ =? _)%nat; [|eauto]. destruct (la_solve A b); [|eauto]. left.
      eexists. split; [reflexivity|apply vtab_length]. }
    destruct pc.
    - assert (Hfold : forall l P, (exists P', foldR (fun i P => rbind (mget J i i) (fun Jii => Ok (mset P i i (if negb (Jii ==?. sZ 0) then sZ 1 /. Jii else sZ 1)))) l P = Ok P') \/
         exists e, foldR (fun i P => rbind (mget J i i) (fun Jii => Ok (mset P i i (if negb (Jii ==?. sZ 0) then sZ 1 /. Jii else sZ 1)))) l P = Err (EThrow e)).
      { induction l as [|i l IH]; intros P0; [left; simpl; eauto|]. simpl. unfold mget at 1 3.
        destruct (nth_error (mcols J) i) as [c|]; [|right; simpl; eauto]. destruct (nth_error c i); [|right; simpl; eauto]. simpl. apply IH. }
      destruct (Hfold (seq 0 n) P) as [[P' E]|[e E]]; rewrite E; cbn [rbind]; [|eauto].
      unfold mm. destruct (_ =? _)%nat; cbn [rbind]; [|eauto]. unfold mv. destruct (_ =? _)%nat; cbn [rbind]; [|eauto].
      match goal with |- context [solve ?A ?b] => destruct (Hs A b) as [(d & E1 & E2)|[e E1]] end; rewrite E1; cbn [rbind]; [|eauto].
      left. do 2 eexists. split; [reflexivity|]. intros _. unfold vneg. rewrite map_length, E2, mtab_ncols. exact HJn.
    - destruct (store_LU rj) eqn:Es; simpl negb; cbn match.
      + unfold mv. destruct (_ =? _)%nat; cbn [rbind]; [|eauto]. unfold trisolve at 1 3.
        destruct (_ && _); cbn [rbind]; [|eauto]. destruct (la_trisolve _ _ _); cbn [rbind]; [|eauto].
        unfold trisolve at 1 2. destruct (_ && _); cbn [rbind]; [|eauto]. destruct (la_trisolve _ _ _); cbn [rbind]; [|eauto].
        left. do 2 eexists. split; [reflexivity|discriminate].
      + destruct (Hs J r) as [(d & E1 & E2)|[e E1]]; rewrite E1; cbn [rbind]; [|eauto].
        left. do 2 eexists. split; [reflexivity|]. intros _. unfold vneg. rewrite map_length, E2. exact HJn.
  Qed.

  Lemma impl_returns rj pc lim quiet x opts stats s : store_LU rj = false -> length x = n ->
    exists w' out, newton_impl F rj pc lim quiet x opts stats s = (w', Ok out).
  Proof.
    intros Hst Hx. unfold newton_impl. destruct (Hf x s Hx) as (s1 & r & E1 & Hr). rewrite (bind_run _ _ _ _ _ E1).
    rewrite dot_self. rewrite (bind_run _ _ _ _ _ (eq_refl : lift (Ok _) s1 = (s1, Ok _))).
    destruct (HJ x s1 Hx) as (s2 & J & E2 & HJn). rewrite (bind_run _ _ _ _ _ E2).
    edestruct (while_returns (fun s => negb (ns_term s) && (ns_iters s <? o_maxit opts)%Z)
             (newton_body F rj pc lim quiet x opts stats)
             (fun _ s => length (ns_x0 s) = n /\ ncols (ns_J s) = n)
             (fun s => Z.to_nat (o_maxit opts - ns_iters s))) as (w' & z & Hz).
    5:{ rewrite (bind_run _ _ _ _ _ Hz). destruct z as [z|o]; do 2 eexists; reflexivity. }
    - intros w s0 [H1 H2] Hc. apply andb_true_iff in Hc. destruct Hc as [_ Hc]. apply Z.ltb_lt in Hc.
      unfold newton_body. rewrite Hx. destruct (direction_cases rj pc (ns_J s0) (ns_LUP s0) (ns_r s0) H2) as [(d & LUP' & E & Hd)|[e E]]; rewrite E.
      2:{ do 2 eexists. split; [reflexivity|exact I]. }
      specialize (Hd Hst).
      match goal with |- context [limit_direction ?a ?b ?c] => destruct (limit_total a b c) as (d' & E3 & Hd') end. rewrite E3.
      rewrite (bind_run _ _ _ _ _ (eq_refl : lift (Ok _) w = (w, Ok _))).
      match goal with |- context [vadd ?a ?b] => destruct (vadd_len a b) as (xn & E4 & Hxn) end.
      { unfold vscale. rewrite map_length. lia. }
      rewrite E4, (bind_run _ _ _ _ _ (eq_refl : lift (Ok _) w = (w, Ok _))).
      assert (Hjac : exists w1 J1, (if negb (rj =? 0)%Z then n_jac F xn else ret (ns_J s0)) w = (w1, Ok J1) /\ ncols J1 = n).
      { destruct (negb _); [apply HJ; lia|]. do 2 eexists. split; [reflexivity|exact H2]. }
      destruct Hjac as (w1 & J1 & E5 & HJ1). rewrite (bind_run _ _ _ _ _ E5).
      destruct (Hf xn w1 ltac:(lia)) as (w2 & r2 & E6 & Hr2). rewrite (bind_run _ _ _ _ _ E6).
      rewrite dot_self, (bind_run _ _ _ _ _ (eq_refl : lift (Ok _) w2 = (w2, Ok _))).
      do 2 eexists. split; [reflexivity|]. cbn [ns_x0 ns_J ns_iters]. repeat split; [lia|exact HJ1|lia].
    - intros s0 Hc. apply andb_true_iff in Hc. destruct Hc as [_ Hc]. apply Z.ltb_lt in Hc. lia.
    - cbn [ns_iters]. rewrite Z.sub_0_r. apply Nat.le_refl.
    - split; [exact Hx|exact HJn].
  Qed.
  Lemma newton_returns x opts stats quiet s : length x = n -> exists w' out, newton_iterate F x opts stats quiet s = (w', Ok out).
  Proof. intros Hx. rewrite dispatch. apply impl_returns; [destruct (_ >? _)%Z; reflexivity|exact Hx]. Qed.

  Lemma broyden_returns x opts stats quiet s : length x = n -> exists w' out, broyden_iterate F x opts stats quiet s = (w', Ok out).
  Proof.
    intros Hx. unfold broyden_iterate. destruct (Hf x s Hx) as (s1 & r & E1 & Hr). rewrite (bind_run _ _ _ _ _ E1).
    rewrite dot_self. rewrite (bind_run _ _ _ _ _ (eq_refl : lift (Ok _) s1 = (s1, Ok _))).
    edestruct (while_returns (fun s => negb (bs_term s) && (bs_iters s <? o_maxit opts)%Z)
             (broyden_body F opts quiet)
             (fun _ s => length (bs_x0 s) = n /\ length (bs_f0 s) = n /\ nrows (bs_Jaci s) = n /\ ncols (bs_Jaci s) = n)
             (fun s => Z.to_nat (o_maxit opts - bs_iters s))) as (w' & z & Hz).
    5:{ rewrite (bind_run _ _ _ _ _ Hz). destruct z as [z|[]]; do 2 eexists; reflexivity. }
    - intros w s0 (H1 & H2 & H3 & H4) Hc. apply andb_true_iff in Hc. destruct Hc as [_ Hc]. apply Z.ltb_lt in Hc.
      unfold broyden_body.
      destruct (mv_len (bs_Jaci s0) (bs_f0 s0) ltac:(lia)) as (Jf & E & HJf).
      rewrite E, (bind_run _ _ _ _ _ (eq_refl : lift (Ok _) w = (w, Ok _))). clear E.
      match goal with |- context [limit_direction ?a ?b ?c] => destruct (limit_total a b c) as (d & E & Hd) end.
      unfold vscale in Hd. rewrite map_length in Hd. rewrite E, (bind_run _ _ _ _ _ (eq_refl : lift (Ok _) w = (w, Ok _))). clear E.
      destruct (vadd_len (bs_x0 s0) d ltac:(lia)) as (x1 & E & Hx1). rewrite E, (bind_run _ _ _ _ _ (eq_refl : lift (Ok _) w = (w, Ok _))). clear E.
      destruct (Hf x1 w ltac:(lia)) as (w2 & r1 & E & Hr1). rewrite (bind_run _ _ _ _ _ E). clear E.
      destruct (vsub_len x1 (bs_x0 s0) ltac:(lia)) as (dx & E & Hdx). rewrite E, (bind_run _ _ _ _ _ (eq_refl : lift (Ok _) w2 = (w2, Ok _))). clear E.
      destruct (vsub_len r1 (bs_f0 s0) ltac:(lia)) as (df & E & Hdf). rewrite E, (bind_run _ _ _ _ _ (eq_refl : lift (Ok _) w2 = (w2, Ok _))). clear E.
      assert (Ht : nrows (transpose (sZ 0) (bs_Jaci s0)) = n /\ ncols (transpose (sZ 0) (bs_Jaci s0)) = n)
        by (unfold transpose; rewrite mtab_ncols, mtab_nrows; auto).
      destruct Ht as [Ht1 Ht2].
      destruct (mv_len (transpose (sZ 0) (bs_Jaci s0)) dx ltac:(lia)) as (xtJ & E & HxtJ). rewrite E, (bind_run _ _ _ _ _ (eq_refl : lift (Ok _) w2 = (w2, Ok _))). clear E.
      assert (Edot : dot xtJ df = Ok (la_dot xtJ df)) by (unfold dot; replace (length xtJ =? length df)%nat with true by (symmetry; apply Nat.eqb_eq; lia); reflexivity).
      rewrite Edot, (bind_run _ _ _ _ _ (eq_refl : lift (Ok _) w2 = (w2, Ok _))).
      destruct (mv_len (bs_Jaci s0) df ltac:(lia)) as (Jdf & E & HJdf). rewrite E, (bind_run _ _ _ _ _ (eq_refl : lift (Ok _) w2 = (w2, Ok _))). clear E.
      destruct (vsub_len dx Jdf ltac:(lia)) as (left & E & Hleft). rewrite E, (bind_run _ _ _ _ _ (eq_refl : lift (Ok _) w2 = (w2, Ok _))). clear E.
      unfold madd at 1, msame. rewrite mtab_nrows, mtab_ncols, H3, H4, Hleft, Hdx, Hx1, H1, HxtJ, Ht1, !Nat.eqb_refl. cbn [andb].
      rewrite (bind_run _ _ _ _ _ (eq_refl : lift (Ok _) w2 = (w2, Ok _))).
      rewrite dot_self, (bind_run _ _ _ _ _ (eq_refl : lift (Ok _) w2 = (w2, Ok _))).
      do 2 eexists. split; [reflexivity|]. cbn [bs_x0 bs_f0 bs_Jaci bs_iters]. repeat split; try lia.
      + unfold mzip. cbn [nrows]. exact H3.
      + unfold mzip, ncols. cbn [mcols]. rewrite map_length, combine_length. fold (ncols (bs_Jaci s0)).
        match goal with |- Nat.min _ (length (mcols (mtab ?a ?b ?f))) = _ => change (length (mcols (mtab a b f))) with (ncols (mtab a b f)); rewrite (mtab_ncols a b f) end.
        lia.
    - intros s0 Hc. apply andb_true_iff in Hc. destruct Hc as [_ Hc]. apply Z.ltb_lt in Hc. lia.
    - cbn [bs_iters]. lia.
    - cbn [bs_x0 bs_f0 bs_Jaci]. repeat split; auto. unfold eye. rewrite mtab_ncols. exact Hx.
  Qed.
End Total.
