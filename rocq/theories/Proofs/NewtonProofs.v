(** newton.hpp: what a run of newton_iterate / broyden_iterate does, for every arithmetic. *)
From Coq Require Import String.
From Verif Require Import Model.Base Model.Scalar Model.LinAlg Model.Newton Spec.ErkSpec Spec.NewtonSpec Proofs.LoopProofs Proofs.SumsProofs Proofs.RVec.
Local Open Scope sc_scope.
Local Open Scope mon_scope.

(** A loop whose measure decreases does not run out of fuel. *)
Lemma while_nofuel {W S R} (cond : S -> bool) (body : S -> M W (S + R)) (mu : S -> nat) :
  (forall s w, snd (body s w) <> Err EFuel) ->
  (forall s w w' s', cond s = true -> body s w = (w', Ok (inl s')) -> (mu s' < mu s)%nat) ->
  (forall s, cond s = true -> (0 < mu s)%nat) ->
  forall fuel s w, (mu s <= fuel)%nat -> snd (while cond body fuel s w) <> Err EFuel.
Proof.
  intros Hb Hmu Hpos. induction fuel as [|f IH]; intros s w Hle; cbn [while]; destruct (cond s) eqn:E; try (simpl; discriminate).
  - specialize (Hpos s E). lia.
  - unfold bind. pose proof (Hb s w) as Hn. destruct (body s w) as [w1 [[s1|r1]|e]] eqn:Eb; simpl in * .
    + apply IH. specialize (Hmu s w w1 s1 E Eb). lia.
    + discriminate.
    + congruence.
Qed.
Lemma bind_nofuel {W A B} (m : M W A) (k : A -> M W B) w :
  snd (m w) <> Err EFuel -> (forall a w1, snd (k a w1) <> Err EFuel) -> snd (bind m k w) <> Err EFuel.
Proof. intros Hm Hk. unfold bind. destruct (m w) as [w1 [a|e]]; simpl in *; [apply Hk|congruence]. Qed.
Lemma lift_nofuel {W A} (r : res A) (w : W) : r <> Err EFuel -> snd (lift r w) <> Err EFuel.
Proof. unfold lift. simpl. tauto. Qed.
Lemma rbind_nofuel {A B} (m : res A) (k : A -> res B) : m <> Err EFuel -> (forall a, k a <> Err EFuel) -> rbind m k <> Err EFuel.
Proof. intros Hm Hk. destruct m as [a|e]; simpl; [apply Hk|intros [= ->]; auto]. Qed.
Lemma foldR_nofuel {A X} (b : X -> A -> res A) l a : (forall x a, b x a <> Err EFuel) -> foldR b l a <> Err EFuel.
Proof. intros Hb. revert a. induction l as [|x l IH]; intros a; simpl; [discriminate|]. apply rbind_nofuel; [apply Hb|apply IH]. Qed.

Section Snoc.
  Context {A : Type}.
  Lemma consecutive_one (P : A -> A -> Prop) a : consecutive P [a].
  Proof. intros k x y H1 H2. destruct k as [|[|k]]; discriminate. Qed.
  Lemma consecutive_snoc (P : A -> A -> Prop) l a b : consecutive P (l ++ [a]) -> P a b -> consecutive P ((l ++ [a]) ++ [b]).
  Proof.
    intros Hc Hab k x y H1 H2.
    destruct (Nat.lt_ge_cases (S k) (length (l ++ [a]))) as [Hk|Hk].
    - rewrite nth_error_app1 in H1, H2 by lia. eapply Hc; eauto.
    - assert (Hl : (S k < length ((l ++ [a]) ++ [b]))%nat) by (apply nth_error_Some; rewrite H2; discriminate).
      rewrite !app_length in Hk. rewrite !app_length in Hl. cbn [length] in Hl, Hk.
      assert (Ek : k = length l) by lia. subst k.
      rewrite nth_error_app1 in H1 by (rewrite app_length; simpl; lia).
      rewrite nth_error_app2 in H1 by lia. rewrite Nat.sub_diag in H1. injection H1 as <-.
      change (nth_error ((l ++ [a]) ++ [b]) (S (length l)) = Some y) in H2.
      rewrite nth_error_app2 in H2 by (rewrite app_length; simpl; lia).
      rewrite app_length in H2. cbn [length] in H2. replace (S (length l) - (length l + 1))%nat with O in H2 by lia.
      injection H2 as <-. exact Hab.
  Qed.
  Lemma cons_last (v0 : A) V : exists l, v0 :: V = l ++ [last V v0].
  Proof.
    induction V as [|v V IH] using rev_ind; [exists []; reflexivity|].
    exists (v0 :: V). rewrite last_last. reflexivity.
  Qed.
  Lemma consecutive_cons_snoc (P : A -> A -> Prop) v0 V b : consecutive P (v0 :: V) -> P (last V v0) b -> consecutive P (v0 :: V ++ [b]).
  Proof.
    intros Hc Hl. change (v0 :: V ++ [b]) with ((v0 :: V) ++ [b]). destruct (cons_last v0 V) as [l E]. rewrite E in * .
    apply consecutive_snoc; assumption.
  Qed.
End Snoc.

Section Newton.
  Context {T : Type} {HS : Scalar T} {HL : LinAlg T} {HE : Env T} {St : Type} (F : nfunctor T St).
  Notation nl := (nlogged F).

  Lemma nlogged_fun x s l w v : n_fun nl x (s, l) = (w, Ok v) -> exists s', w = (s', l ++ [NFun x v]) /\ n_fun F x s = (s', Ok v).
  Proof. simpl. destruct (n_fun F x s) as [s1 [v'|e]]; [|discriminate]. intros [= <- <-]. eauto. Qed.
  Lemma nlogged_jac x s l w v : n_jac nl x (s, l) = (w, Ok v) -> exists s', w = (s', l ++ [NJac x v]) /\ n_jac F x s = (s', Ok v).
  Proof. simpl. destruct (n_jac F x s) as [s1 [v'|e]]; [|discriminate]. intros [= <- <-]. eauto. Qed.
  (** the value, the matrix at a visited point are answers of the system *)
  Definition answered (v : visit T) : Prop := exists s s', n_fun F (v_x v) s = (s', Ok (v_r v)).
  Definition answered_jac (v : visit T) : Prop := exists s s', n_jac F (v_x v) s = (s', Ok (v_J v)).

  Lemma dot_self (r : list T) : dot r r = Ok (la_dot r r).
  Proof. unfold dot. rewrite Nat.eqb_refl. reflexivity. Qed.

  (** the preconditioner: anything on the diagonal, uninitialised memory elsewhere *)
  Definition P_shape (N : nat) (P : mat T) : Prop := exists dv, P = mtab N N (fun i j => if (i =? j)%nat then dv i else junk).
  Definition pre_diag (J : mat T) (i : nat) : T :=
    match mget J i i with Ok Jii => if negb (Jii ==?. sZ 0) then sZ 1 /. Jii else sZ 1 | Err _ => sZ 1 end.
  Lemma precondition_shape N J P P' : P_shape N P ->
    foldR (fun i P => rbind (mget J i i) (fun Jii => Ok (mset P i i (if negb (Jii ==?. sZ 0) then sZ 1 /. Jii else sZ 1)))) (seq 0 N) P = Ok P' ->
    P' = mtab N N (fun i j => if (i =? j)%nat then pre_diag J i else junk) /\ forall i, (i < N)%nat -> exists a, mget J i i = Ok a.
  Proof.
    intros [dv ->] Hf.
    pose (I := fun (k : nat) (P : mat T) => P = mtab N N (fun i j => if (i =? j)%nat then (if (i <? k)%nat then pre_diag J i else dv i) else junk) /\
                 forall i, (i < k)%nat -> exists a, mget J i i = Ok a).
    assert (H : I (0 + N)%nat P').
    { refine (foldR_seq _ I 0 N _ P' _ _ Hf).
      - intros i P0 P1 Hi [-> Hg] Hb. apply rbind_ok in Hb. destruct Hb as (Jii & Hj & Hb). injection Hb as <-. split.
        + rewrite mset_mtab by lia. apply mtab_ext. intros i' j' Hi' Hj'.
          destruct (i' =? i)%nat eqn:E1; simpl.
          * apply Nat.eqb_eq in E1. subst i'. destruct (j' =? i)%nat eqn:E2.
            -- apply Nat.eqb_eq in E2. subst j'. rewrite Nat.eqb_refl. replace (i <? S i)%nat with true by (symmetry; apply Nat.ltb_lt; lia).
               unfold pre_diag. rewrite Hj. reflexivity.
            -- rewrite (Nat.eqb_sym i j'), E2. reflexivity.
          * destruct (i' =? j')%nat; [|reflexivity]. apply Nat.eqb_neq in E1.
            destruct (i' <? i)%nat eqn:E3, (i' <? S i)%nat eqn:E4; try reflexivity;
              [apply Nat.ltb_lt in E3; apply Nat.ltb_ge in E4; lia|apply Nat.ltb_ge in E3; apply Nat.ltb_lt in E4; lia].
        + intros q Hq. destruct (Nat.eq_dec q i) as [->|Hne]; [eauto|]. apply Hg. lia.
      - split; [|intros i Hi; lia]. apply mtab_ext. intros. simpl. reflexivity. }
    destruct H as [-> Hg]. split; [|exact Hg]. apply mtab_ext. intros i j Hi Hj. apply Nat.ltb_lt in Hi. simpl. rewrite Hi. reflexivity.
  Qed.
  Lemma direction_shape rj pc N J LUP (r : list T) d LUP' : newton_direction rj pc N J LUP r = Ok (d, LUP') ->
    P_shape N (snd LUP) -> P_shape N (snd LUP').
  Proof.
    unfold newton_direction. destruct LUP as [[L U] P]. intros Hd HP. destruct pc; [|destruct (negb _)].
    - apply rbind_ok in Hd. destruct Hd as (P1 & H1 & Hd). apply precondition_shape in H1; [|exact HP]. destruct H1 as [-> _].
      apply rbind_ok in Hd. destruct Hd as (? & _ & Hd). apply rbind_ok in Hd. destruct Hd as (? & _ & Hd).
      apply rbind_ok in Hd. destruct Hd as (? & _ & Hd). injection Hd as <- <-. simpl. eexists. reflexivity.
    - apply rbind_ok in Hd. destruct Hd as (? & _ & Hd). injection Hd as <- <-. exact HP.
    - apply rbind_ok in Hd. destruct Hd as (? & _ & Hd). apply rbind_ok in Hd. destruct Hd as (? & _ & Hd).
      apply rbind_ok in Hd. destruct Hd as (? & _ & Hd). injection Hd as <- <-. exact HP.
  Qed.

  Section Impl.
    Context (refresh_jac : Z) (precondition limit_step quiet : bool) (x : list T) (opts : options T) (stats : status T).
    Notation refresh := (negb (refresh_jac =? 0)%Z).

    (** the direction of the step from v to v' *)
    Definition from_solver (v v' : visit T) : Prop :=
      exists LUP LUP' d, (store_LU refresh_jac = false -> P_shape (length x) (snd LUP)) /\
        newton_direction refresh_jac precondition (length x) (v_J v) LUP (v_r v) = Ok (d, LUP') /\
        limit_direction (max_step2_of opts) (newton_lambda limit_step v) d = Ok (v_d v').
    Definition moves (v v' : visit T) : Prop := newton_move refresh limit_step v v' /\ from_solver v v'.

    Definition all_answered (v0 : visit T) (V : list (visit T)) : Prop :=
      Forall answered (v0 :: V) /\ answered_jac v0 /\ (refresh = true -> Forall answered_jac V).
    Definition ninv (l0 : list (ncall T)) (w : St * list (ncall T)) (s : nstate) : Prop :=
      exists v0 V, v_x v0 = x /\ v_d v0 = [] /\ all_answered v0 V /\
        snd w = l0 ++ newton_log refresh v0 V /\
        ns_iters s = Z.of_nat (length V) /\
        ns_x0 s = v_x (last V v0) /\ ns_xn s = ns_x0 s /\ ns_r s = v_r (last V v0) /\ ns_res2 s = la_dot (ns_r s) (ns_r s) /\
        ns_J s = v_J (last V v0) /\ ns_conv s = SUCCESS /\
        consecutive moves (v0 :: V) /\
        (ns_term s = true -> exists V' vl, V = V' ++ [vl] /\ converged opts vl = true) /\
        (forall v, In v (removelast V) -> converged opts v = false) /\
        (ns_term s = false -> forall v, In v V -> converged opts v = false) /\
        (length V <= Z.to_nat (o_maxit opts))%nat /\
        (store_LU refresh_jac = false -> P_shape (length x) (snd (ns_LUP s))) /\
        ns_prints s = if quiet then O else length V.

    (** what is known when the [try] block fails *)
    Definition ncaught (l0 : list (ncall T)) (w : St * list (ncall T)) (out : list T * status T * nat) : Prop :=
      exists v0 V, v_x v0 = x /\ v_d v0 = [] /\ all_answered v0 V /\
        snd w = l0 ++ newton_log refresh v0 V /\ consecutive moves (v0 :: V) /\
        (forall v, In v V -> converged opts v = false) /\ (length V < Z.to_nat (o_maxit opts))%nat /\
        (exists LUP e, (store_LU refresh_jac = false -> P_shape (length x) (snd LUP)) /\
           newton_direction refresh_jac precondition (length x) (v_J (last V v0)) LUP (v_r (last V v0)) = Err (EThrow e)) /\
        out = (x, Status GENERIC_ERROR (st_res stats) (Z.of_nat (length V)) (st_eta_final stats), if quiet then O else Datatypes.S (length V)).

    Notation cond := (fun s => negb (ns_term s) && (ns_iters s <? o_maxit opts)%Z).
    Notation body := (newton_body nl refresh_jac precondition limit_step quiet x opts stats).

    Lemma body_inv l0 w s w' r : ninv l0 w s -> cond s = true -> body s w = (w', Ok r) ->
      match r with inl s' => ninv l0 w' s' | inr out => ncaught l0 w' out end.
    Proof.
      intros (v0 & V & Hx & Hd0 & Hans & Hlog & Hit & Hx0 & Hxn & Hr & Hres & HJ & Hconv & Hmv & Hterm & Hnc & Hnc' & Hlen & Hsh & Hpr) Hc Hb.
      apply andb_true_iff in Hc. destruct Hc as [Hc1 Hc2]. apply negb_true_iff in Hc1. apply Z.ltb_lt in Hc2.
      specialize (Hnc' Hc1). clear Hterm Hnc.
      assert (Hlt : (length V < Z.to_nat (o_maxit opts))%nat) by lia.
      unfold newton_body in Hb.
      destruct (newton_direction refresh_jac precondition (length x) (ns_J s) (ns_LUP s) (ns_r s)) as [[d LUP]|e] eqn:Ed.
      2:{ destruct e as [e| | |]; try discriminate Hb. apply ret_ok in Hb. destruct Hb as [-> <-].
          exists v0, V. repeat (split; [assumption|]). split.
          - exists (ns_LUP s), e. rewrite <- HJ, <- Hr. split; [exact Hsh|exact Ed].
          - rewrite Hit, Hpr. destruct quiet; reflexivity. }
      apply bind_ok in Hb. destruct Hb as (w1 & d1 & H1 & Hb). apply lift_ok in H1. destruct H1 as [-> Hd1].
      apply bind_ok in Hb. destruct Hb as (w1 & xn & H1 & Hb). apply lift_ok in H1. destruct H1 as [-> Hxn'].
      apply bind_ok in Hb. destruct Hb as (w1 & J & HJac & Hb).
      apply bind_ok in Hb. destruct Hb as (w2 & rr & Hfun & Hb).
      apply bind_ok in Hb. destruct Hb as (w3 & res2 & H1 & Hb). apply lift_ok in H1. destruct H1 as [-> Hres2].
      rewrite dot_self in Hres2. injection Hres2 as <-.
      apply ret_ok in Hb. destruct Hb as [-> <-].
      pose (vn := Visit xn rr J d1).
      assert (Hlast : last (V ++ [vn]) v0 = vn) by apply last_last.
      destruct w as [s0 l]. simpl in Hlog. subst l.
      assert (Hlog2 : snd w2 = l0 ++ newton_log refresh v0 (V ++ [vn]) /\ all_answered v0 (V ++ [vn])).
      { unfold newton_log, all_answered in * . rewrite flat_map_app. simpl. rewrite app_nil_r.
        change (v0 :: V ++ [vn]) with ((v0 :: V) ++ [vn]). rewrite !Forall_app. destruct Hans as (Ha1 & Ha2 & Ha3).
        destruct refresh eqn:Erf.
        - destruct w1 as [s1 l1]. apply nlogged_jac in HJac. destruct HJac as (s1' & E1 & HJa). injection E1 as -> ->.
          apply nlogged_fun in Hfun. destruct Hfun as (s2' & -> & Hfa). simpl. rewrite <- !app_assoc. split; [reflexivity|].
          split; [split; [exact Ha1|constructor; [do 2 eexists; exact Hfa|constructor]]|]. split; [exact Ha2|]. intros _.
          split; [apply Ha3; reflexivity|constructor; [do 2 eexists; exact HJa|constructor]].
        - apply ret_ok in HJac. destruct HJac as [-> _]. apply nlogged_fun in Hfun. destruct Hfun as (s2' & -> & Hfa). simpl.
          rewrite <- !app_assoc. split; [reflexivity|].
          split; [split; [exact Ha1|constructor; [do 2 eexists; exact Hfa|constructor]]|]. split; [exact Ha2|]. discriminate. }
      destruct Hlog2 as [Hlog2 Hans2].
      assert (HJn : refresh = false -> J = ns_J s).
      { intros E. rewrite E in HJac. apply ret_ok in HJac. destruct HJac as [_ <-]. reflexivity. }
      exists v0, (V ++ [vn]). split; [exact Hx|]. split; [exact Hd0|]. split; [exact Hans2|]. split; [exact Hlog2|].
      split; [cbn [ns_iters]; rewrite app_length, Hit; simpl; lia|].
      rewrite Hlast. cbn [ns_x0 ns_xn ns_r ns_res2 ns_J ns_conv ns_term ns_prints].
      split; [reflexivity|]. split; [reflexivity|]. split; [reflexivity|]. split; [reflexivity|]. split; [reflexivity|].
      split; [destruct (la_norminf d1 <?. o_dx_delta opts); [reflexivity|exact Hconv]|].
      assert (Hlam : newton_lambda limit_step (last V v0) = (if limit_step then sZ 1 /. (sZ 1 +. ns_res2 s) else sZ 1))
        by (unfold newton_lambda; rewrite Hres, Hr; reflexivity).
      split.
      { apply consecutive_cons_snoc; [exact Hmv|]. split.
        - split; [|intros E; cbn [v_J vn]; rewrite (HJn E); exact HJ].
          cbn [v_x v_d vn]. rewrite Hlam, <- Hx0. exact Hxn'.
        - exists (ns_LUP s), LUP, d. rewrite <- HJ, <- Hr, Hlam. split; [exact Hsh|]. split; [exact Ed|exact Hd1]. }
      split.
      { intros Ht. destruct (la_norminf d1 <?. o_dx_delta opts) eqn:Ec; [|congruence]. exists V, vn. split; [reflexivity|exact Ec]. }
      split; [rewrite removelast_last; exact Hnc'|].
      split.
      { intros Ht v Hv. destruct (la_norminf d1 <?. o_dx_delta opts) eqn:Ec; [discriminate|].
        apply in_app_or in Hv. destruct Hv as [Hv|[<-|[]]]; [apply Hnc', Hv|exact Ec]. }
      split; [rewrite app_length; simpl; lia|].
      split. { intros E. cbn [ns_LUP]. rewrite E, andb_false_r. exact (direction_shape _ _ _ _ _ _ _ _ Ed (Hsh E)). }
      rewrite app_length, Hpr. destruct quiet; simpl; lia.
    Qed.

    (** the end of a run *)
    Definition noutcome (l0 : list (ncall T)) (w : St * list (ncall T)) (out : list T * status T * nat) : Prop :=
      exists v0 V, let vl := last V v0 in
        v_x v0 = x /\ v_d v0 = [] /\ all_answered v0 V /\ snd w = l0 ++ newton_log refresh v0 V /\ consecutive moves (v0 :: V) /\
        (forall v, In v (removelast V) -> converged opts v = false) /\ (length V <= Z.to_nat (o_maxit opts))%nat /\
        st_iters (snd (fst out)) = Z.of_nat (length V) /\
        snd out = (if quiet then O else Datatypes.S (length V)) /\
        ((fst (fst out) = x /\ st_conv (snd (fst out)) = GENERIC_ERROR /\
          st_res (snd (fst out)) = st_res stats /\ st_eta_final (snd (fst out)) = st_eta_final stats /\
          (length V < Z.to_nat (o_maxit opts))%nat /\ (forall v, In v V -> converged opts v = false) /\
          exists LUP e, (store_LU refresh_jac = false -> P_shape (length x) (snd LUP)) /\
            newton_direction refresh_jac precondition (length x) (v_J vl) LUP (v_r vl) = Err (EThrow e))
         \/
         (st_res (snd (fst out)) = ssqrt (la_dot (v_r vl) (v_r vl)) /\ st_eta_final (snd (fst out)) = sZ 1 /\
          st_conv (snd (fst out)) = (if negb (sfinite (st_res (snd (fst out)))) then GENERIC_ERROR
                                     else if (Z.of_nat (length V) =? o_maxit opts)%Z then MAXIT_EXCEEDED else SUCCESS) /\
          fst (fst out) = (if (st_conv (snd (fst out)) =? SUCCESS)%Z then v_x vl else x) /\
          ((length V < Z.to_nat (o_maxit opts))%nat -> exists V' v, V = V' ++ [v] /\ converged opts v = true))).

    Lemma impl_run s l w' out : newton_impl nl refresh_jac precondition limit_step quiet x opts stats (s, l) = (w', Ok out) -> noutcome l w' out.
    Proof.
      intros Hr. unfold newton_impl in Hr.
      apply bind_ok in Hr. destruct Hr as (w1 & r & Hf & Hr).
      apply bind_ok in Hr. destruct Hr as (w2 & res2 & H1 & Hr). apply lift_ok in H1. destruct H1 as [-> H1].
      rewrite dot_self in H1. injection H1 as <-.
      apply bind_ok in Hr. destruct Hr as (w3 & J & HJ & Hr).
      apply bind_ok in Hr. destruct Hr as (w4 & z & Hw & Hr).
      apply nlogged_fun in Hf. destruct Hf as (s1 & -> & Hfa).
      apply nlogged_jac in HJ. destruct HJ as (s2 & -> & HJa).
      assert (Hz : match z with inl s' => ninv l w4 s' /\ cond s' = false | inr o => ncaught l w4 o end).
      { refine (while_inv cond body (ninv l) (ncaught l) _ _ _ _ _ _ _ _ Hw).
        - intros w s0 w0 s' HI Hc Hb. exact (body_inv l w s0 w0 (inl s') HI Hc Hb).
        - intros w s0 w0 o HI Hc Hb. exact (body_inv l w s0 w0 (inr o) HI Hc Hb).
        - exists (Visit x r J []), []. cbn [v_x v_d v_r v_J last snd ns_iters ns_x0 ns_xn ns_r ns_res2 ns_J ns_conv ns_term ns_prints length removelast].
          split; [reflexivity|]. split; [reflexivity|].
          split; [split; [constructor; [do 2 eexists; exact Hfa|constructor]|split; [do 2 eexists; exact HJa|intros _; constructor]]|].
          split; [unfold newton_log; simpl; rewrite <- app_assoc; reflexivity|].
          do 7 (split; [reflexivity|]).
          split; [apply consecutive_one|]. split; [discriminate|]. split; [intros v []|]. split; [intros _ v []|].
          split; [apply Nat.le_0_l|]. split; [|destruct quiet; reflexivity].
          intros E. cbn [ns_LUP]. rewrite E. exists (fun _ => junk). apply mtab_ext. intros i j _ _. destruct (i =? j)%nat; reflexivity. }
      destruct z as [sf|o].
      - destruct Hz as [(v0 & V & Hx & Hd0 & Hans & Hlog & Hit & Hx0 & Hxn & Hrr & Hres & HJJ & Hconv & Hmv & Hterm & Hnc & Hnc' & Hlen & Hsh & Hpr) Hc].
        apply ret_ok in Hr. destruct Hr as [-> <-].
        exists v0, V. cbv zeta. cbn [fst snd st_iters st_conv st_res st_eta_final].
        repeat (split; [assumption|]).
        split; [rewrite Hpr; destruct quiet; reflexivity|].
        right. split; [rewrite Hres, Hrr; reflexivity|]. split; [reflexivity|].
        split; [rewrite Hit, Hconv; reflexivity|].
        split; [rewrite Hxn, Hx0; reflexivity|].
        intros Hlt. apply andb_false_iff in Hc. destruct Hc as [Hc|Hc].
        + apply negb_false_iff in Hc. apply Hterm, Hc.
        + apply Z.ltb_ge in Hc. lia.
      - apply ret_ok in Hr. destruct Hr as [-> <-].
        destruct Hz as (v0 & V & Hx & Hd0 & Hans & Hlog & Hmv & Hnc & Hlt & Hex & ->).
        exists v0, V. cbv zeta. cbn [fst snd st_iters st_conv st_res st_eta_final].
        repeat (split; [assumption|]).
        split. { intros v Hv. apply Hnc. clear - Hv. induction V as [|a V IH]; [exact Hv|]. destruct V as [|b V]; [destruct Hv|].
          destruct Hv as [<-|Hv]; [left; reflexivity|right; apply IH, Hv]. }
        split; [lia|]. split; [reflexivity|]. split; [reflexivity|]. left. repeat (split; [first [reflexivity|assumption]|]). exact Hex.
    Qed.
  End Impl.

  (** the template argument chosen for the option [refresh_jac] *)
  Definition flag (opts : options T) : Z := if (o_refresh_jac opts >? 0)%Z then 1%Z else 0%Z.
  Lemma flag_store opts : store_LU (flag opts) = false.
  Proof. unfold flag. destruct (_ >? _)%Z; reflexivity. Qed.
  Lemma flag_refresh opts : negb (flag opts =? 0)%Z = (o_refresh_jac opts >? 0)%Z.
  Proof. unfold flag. destruct (_ >? _)%Z; reflexivity. Qed.

  (** newton_iterate is the implementation with the flags of the options *)
  Lemma dispatch x opts stats quiet (w : St) :
    newton_iterate F x opts stats quiet w =
    newton_iterate_impl F (if (o_refresh_jac opts >? 0)%Z then 1 else 0) (o_precondition opts) (o_time_internals opts) (o_limit_step opts) quiet x opts stats w.
  Proof.
    unfold newton_iterate. destruct (o_refresh_jac opts >? 0)%Z, (o_precondition opts), (o_time_internals opts), (o_limit_step opts), quiet; reflexivity.
  Qed.

  (** ** Neither loop can run out of fuel *)
  Ltac nofuel := repeat first
    [ apply bind_nofuel; [|intros ? ?] | apply lift_nofuel | apply rbind_nofuel; [|intros ?] | discriminate
    | apply foldR_nofuel; intros ? ? ].
  Lemma vadd_nofuel (a b : list T) : vadd a b <> Err EFuel. Proof. unfold vadd. destruct (_ =? _); discriminate. Qed.
  Lemma vsub_nofuel (a b : list T) : vsub a b <> Err EFuel. Proof. unfold vsub. destruct (_ =? _); discriminate. Qed.
  Lemma mv_nofuel A (b : list T) : mv A b <> Err EFuel. Proof. unfold mv. destruct (_ =? _); discriminate. Qed.
  Lemma mm_nofuel A (B : mat T) : mm A B <> Err EFuel. Proof. unfold mm. destruct (_ =? _); discriminate. Qed.
  Lemma madd_nofuel A (B : mat T) : madd A B <> Err EFuel. Proof. unfold madd. destruct (msame A B); discriminate. Qed.
  Lemma dot_nofuel (a b : list T) : dot a b <> Err EFuel. Proof. unfold dot. destruct (_ =? _); discriminate. Qed.
  Lemma solve_nofuel A (b : list T) : solve A b <> Err EFuel.
  Proof. unfold solve. destruct (_ =? _); [|discriminate]. destruct (la_solve A b); discriminate. Qed.
  Lemma trisolve_nofuel u A (b : list T) : trisolve u A b <> Err EFuel.
  Proof. unfold trisolve. destruct (_ && _); [|discriminate]. destruct (la_trisolve u A b); discriminate. Qed.
  Lemma mget_nofuel (A : mat T) i j : mget A i j <> Err EFuel.
  Proof. unfold mget. destruct (nth_error _ _); [|discriminate]. destruct (nth_error _ _); discriminate. Qed.
  Lemma vget_nofuel (A : list T) i : vget A i <> Err EFuel.
  Proof. unfold vget. destruct (nth_error _ _); discriminate. Qed.
  Lemma limit_nofuel m lam (d : list T) : limit_direction m lam d <> Err EFuel.
  Proof.
    unfold limit_direction. destruct (m >?. sZ 0); [|discriminate]. apply rbind_nofuel; [apply dot_nofuel|intros a].
    destruct (_ >?. _); discriminate.
  Qed.

  Section Fuel.
    Hypothesis Hfun : forall x s, snd (n_fun F x s) <> Err EFuel.
    Hypothesis Hjac : forall x s, snd (n_jac F x s) <> Err EFuel.

    Lemma broyden_nofuel x opts stats quiet s : snd (broyden_iterate F x opts stats quiet s) <> Err EFuel.
    Proof.
      unfold broyden_iterate. apply bind_nofuel; [apply Hfun|intros r w]. apply bind_nofuel; [apply lift_nofuel, dot_nofuel|intros res2 w2].
      apply bind_nofuel; [|intros [z|[]] w3; simpl; discriminate].
      apply (while_nofuel _ _ (fun s => Z.to_nat (o_maxit opts - bs_iters s))).
      - intros s0 w0. unfold broyden_body.
        repeat (apply bind_nofuel; [first [apply Hfun|apply lift_nofuel;
          first [apply vadd_nofuel|apply vsub_nofuel|apply mv_nofuel|apply madd_nofuel|apply dot_nofuel|apply limit_nofuel]]|intros ? ?]).
        simpl. discriminate.
      - intros s0 w0 w' s' Hc Hb. apply andb_true_iff in Hc. destruct Hc as [_ Hc]. apply Z.ltb_lt in Hc.
        unfold broyden_body in Hb.
        repeat (apply bind_ok in Hb; destruct Hb as (? & ? & _ & Hb)).
        apply ret_ok in Hb. destruct Hb as [_ Hb]. injection Hb as <-. cbn [bs_iters]. lia.
      - intros s0 Hc. apply andb_true_iff in Hc. destruct Hc as [_ Hc]. apply Z.ltb_lt in Hc. lia.
      - cbn [bs_iters]. lia.
    Qed.

    Lemma direction_nofuel rj pc N J LUP (r : list T) : newton_direction rj pc N J LUP r <> Err EFuel.
    Proof.
      unfold newton_direction. destruct LUP as [[L U] P]. destruct pc; [|destruct (negb _)].
      - apply rbind_nofuel; [apply foldR_nofuel; intros i P0; apply rbind_nofuel; [apply mget_nofuel|intros ?; discriminate]|intros P1].
        apply rbind_nofuel; [apply mm_nofuel|intros ?]. apply rbind_nofuel; [apply mv_nofuel|intros ?].
        apply rbind_nofuel; [apply solve_nofuel|intros ?; discriminate].
      - apply rbind_nofuel; [apply solve_nofuel|intros ?; discriminate].
      - apply rbind_nofuel; [apply mv_nofuel|intros ?]. apply rbind_nofuel; [apply trisolve_nofuel|intros ?].
        apply rbind_nofuel; [apply trisolve_nofuel|intros ?; discriminate].
    Qed.

    Lemma impl_nofuel rj pc lim quiet x opts stats s : snd (newton_impl F rj pc lim quiet x opts stats s) <> Err EFuel.
    Proof.
      unfold newton_impl. apply bind_nofuel; [apply Hfun|intros r w]. apply bind_nofuel; [apply lift_nofuel, dot_nofuel|intros res2 w2].
      apply bind_nofuel; [apply Hjac|intros J w3].
      apply bind_nofuel; [|intros [z|o] w4; simpl; discriminate].
      apply (while_nofuel _ _ (fun s => Z.to_nat (o_maxit opts - ns_iters s))).
      - intros s0 w0. unfold newton_body. pose proof (direction_nofuel rj pc (length x) (ns_J s0) (ns_LUP s0) (ns_r s0)) as Hd.
        destruct (newton_direction rj pc (length x) (ns_J s0) (ns_LUP s0) (ns_r s0)) as [[d LUP]|[e| | |]]; try (simpl; congruence).
        apply bind_nofuel; [apply lift_nofuel, limit_nofuel|intros ? ?].
        apply bind_nofuel; [apply lift_nofuel, vadd_nofuel|intros ? ?].
        apply bind_nofuel; [destruct (negb _); [apply Hjac|simpl; discriminate]|intros ? ?].
        apply bind_nofuel; [apply Hfun|intros ? ?].
        apply bind_nofuel; [apply lift_nofuel, dot_nofuel|intros ? ?]. simpl. discriminate.
      - intros s0 w0 w' s' Hc Hb. apply andb_true_iff in Hc. destruct Hc as [_ Hc]. apply Z.ltb_lt in Hc.
        unfold newton_body in Hb.
        destruct (newton_direction rj pc (length x) (ns_J s0) (ns_LUP s0) (ns_r s0)) as [[d LUP]|[e| | |]]; try discriminate Hb.
        repeat (apply bind_ok in Hb; destruct Hb as (? & ? & _ & Hb)).
        apply ret_ok in Hb. destruct Hb as [_ Hb]. injection Hb as <-. cbn [ns_iters]. lia.
      - intros s0 Hc. apply andb_true_iff in Hc. destruct Hc as [_ Hc]. apply Z.ltb_lt in Hc. lia.
      - cbn [ns_iters]. lia.
    Qed.
    Lemma newton_nofuel x opts stats quiet s : snd (newton_iterate F x opts stats quiet s) <> Err EFuel.
    Proof. rewrite dispatch. apply impl_nofuel. Qed.
  End Fuel.

  (** ** Broyden's method *)
  Section Broyden.
    Context (x : list T) (opts : options T) (stats : status T) (quiet : bool).
    Definition broyden_lambda (v : visit T) : T := sZ 1 /. ssqrt (sZ 1 +. la_dot (v_r v) (v_r v)).
    Definition broyden_move (v v' : visit T) : Prop :=
      exists Jf dx df xtJ Jdf left,
        mv (v_J v) (v_r v) = Ok Jf /\
        limit_direction (max_step2_of opts) (broyden_lambda v) (vscale (-. broyden_lambda v) Jf) = Ok (v_d v') /\
        vadd (v_x v) (v_d v') = Ok (v_x v') /\ vsub (v_x v') (v_x v) = Ok dx /\ vsub (v_r v') (v_r v) = Ok df /\
        mv (transpose (sZ 0) (v_J v)) dx = Ok xtJ /\ length xtJ = length df /\ mv (v_J v) df = Ok Jdf /\ vsub dx Jdf = Ok left /\
        madd (v_J v) (mtab (length left) (length xtJ) (fun i j => nth i left (sZ 0) *. nth j xtJ (sZ 0) /. la_dot xtJ df)) = Ok (v_J v').
    Definition broyden_done (v : visit T) : bool := converged opts v || (la_dot (v_r v) (v_r v) <?. o_tol opts *. o_tol opts).

    Definition binv (l0 : list (ncall T)) (w : St * list (ncall T)) (s : bstate) : Prop :=
      exists v0 V, v_x v0 = x /\ v_d v0 = [] /\ v_J v0 = eye (length x) /\ Forall answered (v0 :: V) /\
        snd w = l0 ++ broyden_log v0 V /\ bs_iters s = (1 + Z.of_nat (length V))%Z /\
        bs_x0 s = v_x (last V v0) /\ bs_f0 s = v_r (last V v0) /\ bs_res2 s = la_dot (bs_f0 s) (bs_f0 s) /\
        bs_Jaci s = v_J (last V v0) /\ bs_conv s = SUCCESS /\ consecutive broyden_move (v0 :: V) /\
        (bs_term s = true -> exists V' vl, V = V' ++ [vl] /\ broyden_done vl = true) /\
        (forall v, In v (removelast V) -> broyden_done v = false) /\
        (bs_term s = false -> forall v, In v V -> broyden_done v = false) /\
        (length V <= Z.to_nat (o_maxit opts - 1))%nat /\
        bs_prints s = if quiet then O else length V.

    Notation bcond := (fun s => negb (bs_term s) && (bs_iters s <? o_maxit opts)%Z).
    Lemma bbody_inv l0 w s w' s' : binv l0 w s -> bcond s = true -> broyden_body nl opts quiet s w = (w', Ok (inl s')) -> binv l0 w' s'.
    Proof.
      intros (v0 & V & Hx & Hd0 & HJ0 & Hans & Hlog & Hit & Hx0 & Hf0 & Hres & HJ & Hconv & Hmv & Hterm & Hnc & Hnc' & Hlen & Hpr) Hc Hb.
      apply andb_true_iff in Hc. destruct Hc as [Hc1 Hc2]. apply negb_true_iff in Hc1. apply Z.ltb_lt in Hc2.
      specialize (Hnc' Hc1). clear Hterm Hnc.
      unfold broyden_body in Hb.
      apply bind_ok in Hb. destruct Hb as (w1 & Jf & H1 & Hb). apply lift_ok in H1. destruct H1 as [-> HJf].
      apply bind_ok in Hb. destruct Hb as (w1 & d & H1 & Hb). apply lift_ok in H1. destruct H1 as [-> Hd].
      apply bind_ok in Hb. destruct Hb as (w1 & x1 & H1 & Hb). apply lift_ok in H1. destruct H1 as [-> Hx1].
      apply bind_ok in Hb. destruct Hb as (w2 & r & Hfun & Hb).
      apply bind_ok in Hb. destruct Hb as (w1 & dx & H1 & Hb). apply lift_ok in H1. destruct H1 as [-> Hdx].
      apply bind_ok in Hb. destruct Hb as (w1 & df & H1 & Hb). apply lift_ok in H1. destruct H1 as [-> Hdf].
      apply bind_ok in Hb. destruct Hb as (w1 & xtJ & H1 & Hb). apply lift_ok in H1. destruct H1 as [-> HxtJ].
      apply bind_ok in Hb. destruct Hb as (w1 & nrm & H1 & Hb). apply lift_ok in H1. destruct H1 as [-> Hnrm].
      apply bind_ok in Hb. destruct Hb as (w1 & Jdf & H1 & Hb). apply lift_ok in H1. destruct H1 as [-> HJdf].
      apply bind_ok in Hb. destruct Hb as (w1 & left & H1 & Hb). apply lift_ok in H1. destruct H1 as [-> Hleft].
      apply bind_ok in Hb. destruct Hb as (w1 & Jaci & H1 & Hb). apply lift_ok in H1. destruct H1 as [-> HJaci].
      apply bind_ok in Hb. destruct Hb as (w1 & res2 & H1 & Hb). apply lift_ok in H1. destruct H1 as [-> Hres2].
      rewrite dot_self in Hres2. injection Hres2 as <-.
      apply ret_ok in Hb. destruct Hb as [-> Hb]. injection Hb as <-.
      pose (vn := Visit x1 r Jaci d).
      assert (Hlast : last (V ++ [vn]) v0 = vn) by apply last_last.
      destruct w as [s0 l]. simpl in Hlog. subst l.
      apply nlogged_fun in Hfun. destruct Hfun as (s2 & -> & Hfa).
      assert (Hdone : broyden_done vn = (la_norminf d <?. o_dx_delta opts) || (la_dot r r <?. o_tol opts *. o_tol opts)) by reflexivity.
      exists v0, (V ++ [vn]). split; [exact Hx|]. split; [exact Hd0|]. split; [exact HJ0|].
      split; [change (v0 :: V ++ [vn]) with ((v0 :: V) ++ [vn]); apply Forall_app; split; [exact Hans|constructor; [do 2 eexists; exact Hfa|constructor]]|].
      split. { unfold broyden_log. change (v0 :: V ++ [vn]) with ((v0 :: V) ++ [vn]). rewrite map_app, app_assoc. reflexivity. }
      split; [cbn [bs_iters]; rewrite app_length, Hit; cbn [length]; lia|].
      rewrite Hlast. cbn [bs_x0 bs_f0 bs_res2 bs_Jaci bs_conv bs_term bs_prints].
      split; [reflexivity|]. split; [reflexivity|]. split; [reflexivity|]. split; [reflexivity|].
      split; [destruct (la_dot r r <?. o_tol opts *. o_tol opts); [reflexivity|]; destruct (la_norminf d <?. o_dx_delta opts); [reflexivity|exact Hconv]|].
      assert (Hlam : broyden_lambda (last V v0) = sZ 1 /. ssqrt (sZ 1 +. bs_res2 s))
        by (unfold broyden_lambda; rewrite Hres, Hf0; reflexivity).
      split.
      { apply consecutive_cons_snoc; [exact Hmv|]. exists Jf, dx, df, xtJ, Jdf, left.
        unfold dot in Hnrm. destruct (length xtJ =? length df) eqn:El; [|discriminate]. apply Nat.eqb_eq in El. injection Hnrm as <-.
        rewrite Hlam, <- HJ, <- Hf0, <- Hx0. cbn [v_x v_d v_r v_J vn]. repeat (split; [assumption|]). exact HJaci. }
      split.
      { intros Ht. exists V, vn. split; [reflexivity|]. rewrite Hdone.
        destruct (la_norminf d <?. o_dx_delta opts); [reflexivity|]. destruct (la_dot r r <?. o_tol opts *. o_tol opts); [reflexivity|]. congruence. }
      split; [rewrite removelast_last; exact Hnc'|].
      split.
      { intros Ht v Hv. apply in_app_or in Hv. destruct Hv as [Hv|[<-|[]]]; [apply Hnc', Hv|]. rewrite Hdone.
        destruct (la_norminf d <?. o_dx_delta opts), (la_dot r r <?. o_tol opts *. o_tol opts); try discriminate; reflexivity. }
      split; [rewrite app_length; simpl; lia|].
      rewrite app_length, Hpr. destruct quiet; simpl; lia.
    Qed.

    Lemma broyden_run s l w' x' st pr : broyden_iterate nl x opts stats quiet (s, l) = (w', Ok (x', st, pr)) ->
      exists v0 V, let vl := last V v0 in
        v_x v0 = x /\ v_d v0 = [] /\ v_J v0 = eye (length x) /\ Forall answered (v0 :: V) /\ snd w' = l ++ broyden_log v0 V /\ consecutive broyden_move (v0 :: V) /\
        x' = v_x vl /\ st = Status SUCCESS (ssqrt (la_dot (v_r vl) (v_r vl))) (1 + Z.of_nat (length V)) (st_eta_final stats) /\
        (length V <= Z.to_nat (o_maxit opts - 1))%nat /\
        (forall v, In v (removelast V) -> broyden_done v = false) /\
        ((length V < Z.to_nat (o_maxit opts - 1))%nat -> V <> [] /\ broyden_done vl = true) /\
        pr = (if quiet then O else length V).
    Proof.
      intros Hr. unfold broyden_iterate in Hr.
      apply bind_ok in Hr. destruct Hr as (w1 & r & Hf & Hr).
      apply bind_ok in Hr. destruct Hr as (w2 & res2 & H1 & Hr). apply lift_ok in H1. destruct H1 as [-> H1].
      rewrite dot_self in H1. injection H1 as <-.
      apply bind_ok in Hr. destruct Hr as (w4 & z & Hw & Hr).
      apply nlogged_fun in Hf. destruct Hf as (s1 & -> & Hfa).
      assert (Hz : match z with inl s' => binv l w4 s' /\ bcond s' = false | inr o => True end).
      { refine (while_inv bcond _ (binv l) (fun _ _ => True) _ _ _ _ _ _ _ _ Hw).
        - intros w s0 w0 s' HI Hc Hb. exact (bbody_inv l w s0 w0 s' HI Hc Hb).
        - intros. exact I.
        - exists (Visit x r (eye (length x)) []), []. cbn [v_x v_d v_r v_J last snd bs_iters bs_x0 bs_f0 bs_res2 bs_Jaci bs_conv bs_term bs_prints length removelast].
          do 3 (split; [reflexivity|]). split; [constructor; [do 2 eexists; exact Hfa|constructor]|]. do 7 (split; [reflexivity|]).
          split; [apply consecutive_one|]. split; [discriminate|]. split; [intros v []|]. split; [intros _ v []|].
          split; [apply Nat.le_0_l|]. destruct quiet; reflexivity. }
      destruct z as [sf|[]].
      destruct Hz as [(v0 & V & Hx & Hd0 & HJ0 & Hans & Hlog & Hit & Hx0 & Hf0 & Hres & HJ & Hconv & Hmv & Hterm & Hnc & Hnc' & Hlen & Hpr) Hc].
      apply ret_ok in Hr. destruct Hr as [-> E]. injection E as <- <- <-.
      exists v0, V. cbv zeta. do 6 (split; [assumption|]). split; [exact Hx0|].
      split; [rewrite Hconv, Hres, Hf0, Hit; reflexivity|].
      split; [exact Hlen|]. split; [exact Hnc|]. split; [|exact Hpr].
      intros Hlt. apply andb_false_iff in Hc. destruct Hc as [Hc|Hc].
      - apply negb_false_iff in Hc. destruct (Hterm Hc) as (V' & vl & -> & Hd). rewrite last_last. split; [intros E; destruct V'; discriminate|exact Hd].
      - apply Z.ltb_ge in Hc. lia.
    Qed.
  End Broyden.
End Newton.
