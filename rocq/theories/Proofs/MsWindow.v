(** The times at which runs of the multistep solvers can depend on the functor (C130). *)
From Coq Require Import Reals Lra.
From Verif Require Import Model.Base Model.Scalar Model.LinAlg Model.CyclicBuffer Model.Newton Model.Enums Model.Options Model.Irk Model.Multistep.
From Verif Require Import Spec.Sums Spec.Observe Spec.ErkSpec Spec.MultistepSpec Spec.LocalitySpec Spec.MsLocalitySpec.
From Verif Require Import Proofs.LoopProofs Proofs.SumsProofs Proofs.MultistepProofs Proofs.MultistepResults Proofs.LocalityFinal.
Local Open Scope R_scope.

Definition eqm {W A} (p q : M W A) : Prop := forall w, p w = q w.
Section Generic.
  Context {W : Type}.
  Lemma eq_refl_m {A} (p : M W A) : eqm p p. Proof. intros w. reflexivity. Qed.
  Lemma eq_bind {A B} (p q : M W A) (k k' : A -> M W B) : eqm p q -> (forall a w w', p w = (w', Ok a) -> k a w' = k' a w') -> eqm (bind p k) (bind q k').
  Proof. intros Hp Hk w. unfold bind. rewrite <- Hp. destruct (p w) as [w1 [a|e]] eqn:E; [apply (Hk a w w1 E)|reflexivity]. Qed.
  Lemma eq_foldM {A} (I : nat -> A -> Prop) (b b' : nat -> A -> M W A) n : forall lo a,
    (forall i a, (lo <= i < lo + n)%nat -> I i a -> eqm (b i a) (b' i a)) -> (forall i a w w' a', (lo <= i < lo + n)%nat -> I i a -> b i a w = (w', Ok a') -> I (S i) a') ->
    I lo a -> eqm (foldM b (seq lo n) a) (foldM b' (seq lo n) a).
  Proof.
    induction n as [|n IH]; intros lo a Hb HI H0; cbn [seq foldM]; [apply eq_refl_m|].
    apply eq_bind; [apply Hb; [lia|exact H0]|]. intros a1 w w' E. apply (IH (S lo) a1).
    - intros i a2 Hi. apply Hb. lia.
    - intros i a2 v v' a3 Hi. apply HI. lia.
    - exact (HI lo a w w' a1 ltac:(lia) H0 E).
  Qed.
  Lemma eq_while {S R} (I : S -> Prop) (c : S -> bool) (b b' : S -> M W (S + R)) :
    (forall s, I s -> c s = true -> eqm (b s) (b' s)) -> (forall s w w' s', I s -> c s = true -> b s w = (w', Ok (inl s')) -> I s') ->
    forall fuel s, I s -> eqm (while c b fuel s) (while c b' fuel s).
  Proof.
    intros Hb HI. induction fuel as [|n IH]; intros s Hs; cbn [while]; (destruct (c s) eqn:E; [|apply eq_refl_m]); [apply eq_refl_m|].
    apply eq_bind; [apply Hb; assumption|]. intros [s'|r] w w' E'; [|reflexivity]. apply IH. exact (HI s w w' s' Hs E E').
  Qed.
End Generic.

Section Newton.
  Context {T : Type} {HS : Scalar T} {HL : LinAlg T} {HE : Env T} {St : Type} (F G : nfunctor T St).
  Hypothesis Hf : forall x, eqm (n_fun F x) (n_fun G x).
  Hypothesis Hj : forall x, eqm (n_jac F x) (n_jac G x).
  Lemma eq_while_all {W S R} (c : S -> bool) (b b' : S -> M W (S + R)) : (forall s, eqm (b s) (b' s)) -> forall fuel s, eqm (while c b fuel s) (while c b' fuel s).
  Proof. intros Hb fuel s. apply (eq_while (fun _ => True)); auto. Qed.
  Ltac eqm1 := first [apply eq_refl_m|apply Hf|apply Hj|apply eq_while_all; intros ?|apply eq_bind; [|intros ? ? w' _; revert w'; change (eqm (W := St)) with (@eqm St)]].
  Lemma eq_impl rj pc ls q x opts st : eqm (newton_impl F rj pc ls q x opts st) (newton_impl G rj pc ls q x opts st).
  Proof.
    unfold newton_impl. apply eq_bind; [apply Hf|]. intros r _ w1 _. revert w1.
    apply eq_bind; [apply eq_refl_m|]. intros res2 _ w2 _. revert w2.
    apply eq_bind; [apply Hj|]. intros J _ w3 _. revert w3. cbv zeta.
    apply eq_bind; [|intros z _ w4 _; reflexivity]. apply eq_while_all. intros s. unfold newton_body. cbv zeta.
    destruct (newton_direction _ _ _ _ _ _) as [[d LUP]|e]; [|apply eq_refl_m].
    apply eq_bind; [apply eq_refl_m|]. intros d' _ w5 _. revert w5.
    apply eq_bind; [apply eq_refl_m|]. intros xn _ w6 _. revert w6.
    apply eq_bind; [destruct (negb _); [apply Hj|apply eq_refl_m]|]. intros J' _ w7 _. revert w7.
    apply eq_bind; [apply Hf|]. intros r' _ w8 _. reflexivity.
  Qed.
  Lemma eq_newton x opts st q : eqm (newton_iterate F x opts st q) (newton_iterate G x opts st q).
  Proof.
    unfold newton_iterate, newton_iterate_impl. cbv zeta.
    destruct (o_refresh_jac opts >? 0)%Z, (o_precondition opts), (o_time_internals opts), (o_limit_step opts), q; cbn [Nat.add]; apply eq_impl.
  Qed.
End Newton.

Section Ms.
  Context {HL : LinAlg R} {HE : Env R} {St : Type} (F G : functor R St).
  Local Notation W := (world R St).
  Variables (t0 t1 : R) (y0 : list R) (dt : R).
  Hypothesis Hpos : ndebug = false \/ (t0 < t1 /\ 0 < dt).
  Local Notation h := (Rmin dt (t1 - t0)).

  Lemma fitted_min : fitted_step t0 t1 dt = h.
  Proof.
    unfold fitted_step. cbn. unfold Rltb. unfold Rmin. destruct (Rlt_dec t1 (t0 + dt)), (Rle_dec dt (t1 - t0)); try reflexivity; lra.
  Qed.

  Lemma eq_bootstrap fuel order (e : R) : 0 < h -> (forall c, reached t0 e (t0 + INR (Z.to_nat order - 1) * h) (call_time c) -> agree_at F G c) ->
    eqm (bootstrap_history fuel F order y0 t0 h) (bootstrap_history fuel G order y0 t0 h).
  Proof.
    intros Hh Hag. unfold bootstrap_history. apply eq_bind; [|intros r _ w _; reflexivity].
    apply (eq_foldM (fun i s => fst (fst s) = t0 + INR (i - 1) * h)).
    - intros i [[t ts] ys] Hi Ht. cbn [fst] in Ht. apply eq_bind; [apply eq_refl_m|]. intros yi _ w1 _. revert w1.
      apply eq_bind; [|intros sol _ w2 _; reflexivity]. intros w. apply same_irk.
      + right. cbn [sadd RScalar]. split; [lra|]. cbn. lra.
      + intros c Hc. apply Hag. cbn [sadd RScalar] in Hc. rewrite Ht in Hc. pose proof (pos_INR (i - 1)). split; [nra|]. right.
        assert (INR (i - 1) + 1 <= INR (Z.to_nat order - 1)) by (rewrite <- S_INR; apply le_INR; lia). nra.
    - intros i [[t ts] ys] w w' [[t' ts'] ys'] Hi Ht E. cbn [fst] in * . apply bind_ok in E. destruct E as (w1 & yi & _ & E). apply bind_ok in E. destruct E as (w2 & sol & _ & E).
      apply bind_ok in E. destruct E as (w3 & yn & _ & E). apply ret_ok in E. destruct E as [_ E]. injection E as <- _ _. rewrite Ht. cbn [sadd RScalar].
      replace (S i - 1)%nat with (S (i - 1)) by lia. rewrite S_INR. ring.
    - cbn. lra.
  Qed.
  Lemma load_time fuel order (X : functor R St) (w w' : W) hist b t y b' : 0 < h -> bootstrap_history fuel X order y0 t0 h w = (w', Ok hist) -> load_history hist b = Ok (t, y, b') -> t0 <= t.
  Proof.
    intros Hh E L. destruct hist as [ts ys]. pose proof (bootstrap_values fuel X order y0 t0 h w w' ts ys E) as (-> & _). unfold load_history in L. apply rbind_ok in L. destruct L as (b1 & _ & L). cbn [fst snd] in L.
    set (k := Nat.max 1 (Z.to_nat order)) in * . rewrite grid_length in L. rewrite (nth_error_nth' (grid k t0 h) t0) in L by (rewrite grid_length; unfold k; lia).
    rewrite grid_nth in L by (unfold k; lia). destruct (nth_error ys (k - 1)); [|discriminate L]. injection L as <- _ _.
    clear -Hh. induction (k - 1)%nat as [|n IH]; cbn [gtime]; [lra|]. cbn [sadd RScalar]. lra.
  Qed.

  Lemma Hpos_step (w w' : W) u : assert_ ndebug (h >?. sZ 0)%sc w = (w', Ok u) -> 0 < h.
  Proof.
    intros E. destruct Hpos as [Hd|[A B]]; [|apply Rmin_glb_lt; lra]. rewrite Hd in E. unfold assert_ in E. destruct (h >?. sZ 0)%sc eqn:Eb; [|discriminate].
      cbn in Eb. unfold Rltb in Eb. destruct (Rlt_dec 0 h); [assumption|discriminate Eb].
  Qed.

  Theorem ab_window fuel order (w : W) : (forall c, reached t0 t1 (t0 + INR (Z.to_nat order - 1) * h) (call_time c) -> agree_at F G c) ->
    adams_bashforth fuel F t0 t1 y0 order dt w = adams_bashforth fuel G t0 t1 y0 order dt w.
  Proof.
    intros Hag. unfold adams_bashforth. cbv zeta. fold (fitted_step t0 t1 dt). rewrite fitted_min. revert w.
    change (forall w, ?p w = ?q w) with (eqm p q).
    apply eq_bind; [apply eq_refl_m|]. intros u w w1 Eu. pose proof (Hpos_step _ _ _ Eu) as Hh. clear w Eu. revert w1.
    apply eq_bind; [apply eq_refl_m|]. intros b _ w2 _. revert w2.
    apply eq_bind; [apply (eq_bootstrap fuel order t1 Hh Hag)|]. intros hist v v' Eh. revert v'  Eh. intros v' Eh.
    assert (Q : forall t y b', load_history hist b = Ok (t, y, b') -> t0 <= t) by (intros t y b' L; exact (load_time _ _ _ _ _ _ _ _ _ _ Hh Eh L)). clear v Eh. revert v'.
    apply eq_bind; [apply eq_refl_m|]. intros [[t y] b'] w3 w4 El. apply lift_ok in El. destruct El as [_ El]. specialize (Q _ _ _ El). clear w3 El. revert w4.
    apply eq_bind; [|intros r _ w5 _; reflexivity].
    apply (eq_while (fun s => t0 <= ms_t s)).
    - intros s Hs Hc. assert (Hc' : ms_t s < t1) by (cbn in Hc; unfold Rltb in Hc; destruct (Rlt_dec (ms_t s) t1); [assumption|discriminate Hc]).
      assert (HF : forall x, eqm (in_world (T := R) (f_fun F (ms_t s) x)) (in_world (f_fun G (ms_t s) x))).
      { intros x w. unfold in_world. rewrite (Hag (CallFun (ms_t s) x)); [reflexivity|]. split; [exact Hs|left; exact Hc']. }
      unfold ab_body. apply eq_bind; [|intros y' _ w5 _; reflexivity]. unfold adams_bashforth_step.
      destruct (order =? 1)%Z; [apply eq_bind; [apply eq_refl_m|]; intros x _ w5 _; revert w5; apply eq_bind; [apply HF|intros; reflexivity]|].
      destruct ((2 <=? order)%Z && (order <=? 5)%Z); [|apply eq_refl_m]. apply eq_bind; [|intros; reflexivity].
      unfold ab_sum. destruct (nth (Z.to_nat order - 1) ab_coeffs []) as [|c0 cs]; [apply eq_refl_m|].
      assert (HT : forall c i, eqm (ab_term F (ms_t s) (ms_hist s) c i) (ab_term G (ms_t s) (ms_hist s) c i)).
      { intros c i. unfold ab_term. apply eq_bind; [apply eq_refl_m|]. intros x _ w5 _. revert w5. apply eq_bind; [apply HF|intros; reflexivity]. }
      apply eq_bind; [apply HT|]. intros v0 _ w5 _. revert w5. change (eqm (foldM (fun p acc => bind (ab_term F (ms_t s) (ms_hist s) (snd p) (Z.of_nat (fst p))) (fun v => lift (vadd acc v))) (combine (seq 1 (length cs)) cs) v0)
        (foldM (fun p acc => bind (ab_term G (ms_t s) (ms_hist s) (snd p) (Z.of_nat (fst p))) (fun v => lift (vadd acc v))) (combine (seq 1 (length cs)) cs) v0)).
      generalize (combine (seq 1 (length cs)) cs). intros l. revert v0. induction l as [|p l IH]; intros v0; cbn [foldM]; [apply eq_refl_m|].
      apply eq_bind; [apply eq_bind; [apply HT|intros; reflexivity]|]. intros a _ w5 _. apply IH.
    - intros s w w' s' Hs Hc E. unfold ab_body in E. apply bind_ok in E. destruct E as (w5 & y' & _ & E). apply bind_ok in E. destruct E as (w6 & b2 & _ & E). cbv zeta in E. apply ret_ok in E. destruct E as [_ E]. injection E as <-. cbn [ms_t sadd RScalar]. lra.
    - exact Q.
  Qed.

  Theorem bdf_window fuel order (w : W) : (forall c, reached t0 (t1 + h) (t0 + INR (Z.to_nat order) * h) (call_time c) -> agree_at F G c) ->
    bdf fuel F t0 t1 y0 order dt w = bdf fuel G t0 t1 y0 order dt w.
  Proof.
    intros Hag. unfold bdf. destruct (order >? 6)%Z; [reflexivity|]. destruct (order <=? 0)%Z eqn:Eo; [reflexivity|]. apply Z.leb_gt in Eo.
    cbv zeta. fold (fitted_step t0 t1 dt). rewrite fitted_min. revert w.
    change (forall w, ?p w = ?q w) with (eqm p q).
    apply eq_bind; [apply eq_refl_m|]. intros u w w1 Eu. pose proof (Hpos_step _ _ _ Eu) as Hh. clear w Eu. revert w1.
    apply eq_bind; [apply eq_refl_m|]. intros b _ w2 _. revert w2.
    apply eq_bind; [apply (eq_bootstrap fuel (order + 1) (t1 + h) Hh); replace (Z.to_nat (order + 1) - 1)%nat with (Z.to_nat order) by lia; exact Hag|]. intros hist v v' Eh.
    assert (Q : forall t y b', load_history hist b = Ok (t, y, b') -> t0 <= t) by (intros t y b' L; exact (load_time _ _ _ _ _ _ _ _ _ _ Hh Eh L)). clear v Eh. revert v'.
    apply eq_bind; [apply eq_refl_m|]. intros [[t y] b'] w3 w4 El. apply lift_ok in El. destruct El as [_ El]. specialize (Q _ _ _ El). clear w3 El. revert w4.
    apply eq_bind; [|intros r _ w5 _; reflexivity].
    apply (eq_while (fun s => t0 <= ms_t s)).
    - intros s Hs Hc. assert (Hc' : ms_t s < t1) by (cbn in Hc; unfold Rltb in Hc; destruct (Rlt_dec (ms_t s) t1); [assumption|discriminate Hc]).
      assert (Hr : reached t0 (t1 + h) (t0 + INR (Z.to_nat order) * h) (ms_t s + h)) by (split; [lra|left; lra]).
      unfold bdf_body. apply eq_bind; [apply eq_refl_m|]. intros part _ w5 _. revert w5. cbv zeta.
      apply eq_bind; [|intros; reflexivity]. intros w. unfold on_copy. rewrite (eq_newton (newton_multistep_helper F (length (ms_y s)) (h *. nth (Z.to_nat order - 1) bdf_rhs_weight (sZ 0))%sc (ms_t s +. h)%sc part) (newton_multistep_helper G (length (ms_y s)) (h *. nth (Z.to_nat order - 1) bdf_rhs_weight (sZ 0))%sc (ms_t s +. h)%sc part)); [reflexivity| |].
      + intros x. cbn [n_fun newton_multistep_helper]. apply eq_bind; [exact (Hag (CallFun (ms_t s + h) x) Hr)|intros; reflexivity].
      + intros x. cbn [n_jac newton_multistep_helper]. apply eq_bind; [exact (Hag (CallJac (ms_t s + h) x) Hr)|intros; reflexivity].
    - intros s w w' s' Hs Hc E. unfold bdf_body in E. apply bind_ok in E. destruct E as (w5 & y' & _ & E). cbv zeta in E. apply bind_ok in E. destruct E as (w6 & [[yn st] x] & _ & E).
      destruct (negb (st_conv st =? Newton.SUCCESS)%Z); [apply ret_ok in E; destruct E as [_ E]; discriminate E|]. apply bind_ok in E. destruct E as (w7 & b2 & _ & E). apply ret_ok in E. destruct E as [_ E]. injection E as <-. cbn [ms_t sadd RScalar]. lra.
    - exact Q.
  Qed.
End Ms.

(** broyden_iterate never asks for the Jacobian *)
Section NoJac.
  Context {T : Type} {HS : Scalar T} {HL : LinAlg T} {St : Type}.
  Theorem broyden_no_jac (F G : nfunctor T St) x opts stats quiet s : (forall y u, n_fun F y u = n_fun G y u) -> broyden_iterate F x opts stats quiet s = broyden_iterate G x opts stats quiet s.
  Proof.
    intros H.
    cut (forall w, broyden_iterate F x opts stats quiet w = broyden_iterate G x opts stats quiet w); [intros Q; apply Q|]. clear s.
    change (eqm (broyden_iterate F x opts stats quiet) (broyden_iterate G x opts stats quiet)).
    unfold broyden_iterate. apply eq_bind; [exact (H x)|]. intros r _ w1 _. revert w1.
    apply eq_bind; [apply eq_refl_m|]. intros res2 _ w2 _. revert w2.
    apply eq_bind; [|intros z _ w4 _; reflexivity]. apply eq_while_all. intros st. unfold broyden_body. cbv zeta.
    repeat (apply eq_bind; [solve [apply eq_refl_m|exact (H _)]|intros ? _ w5 _; revert w5]). apply eq_refl_m.
  Qed.
End NoJac.
