(** The example program as a whole. *)
From Coq Require Import Reals Lra String.
From Verif Require Import Model.Base Model.Scalar Model.LinAlg Model.Enums Model.Options Model.Newton Model.Erk Model.Irk Model.TestEquations Model.StabRegion Model.Examples.
From Verif Require Import Spec.Methods Spec.Observe Spec.ErkSpec Spec.ExamplesSpec.
From Verif Require Import Proofs.EnumsProofs Proofs.ErkGeneric Proofs.IrkResults Proofs.ExamplesParse.
Local Open Scope string_scope.

Section Names.
  Lemma irk_named name m : In (name, m) irk_methods -> irk_id name = m /\ m <> 0%Z.
  Proof. unfold irk_methods. cbn [In]. intros Hin. repeat (destruct Hin as [Hin|Hin]; [injection Hin as <- <-; repeat split; discriminate|]). contradiction. Qed.
  Lemma erk_named name m : In (name, m) erk_methods -> irk_id name = 0%Z /\ erk_id name = m /\ m <> 0%Z.
  Proof. unfold erk_methods. cbn [In]. intros Hin. repeat (destruct Hin as [Hin|Hin]; [injection Hin as <- <-; repeat split; discriminate|]). contradiction. Qed.
  Lemma no_name name : ~ In name (map fst irk_methods) -> ~ In name (map fst erk_methods) -> irk_id name = 0%Z /\ erk_id name = 0%Z.
  Proof.
    intros H2 H3. split; [exact (proj1 (unknown_lookup irk_methods [] (or_introl eq_refl)) name H2)|exact (proj1 (unknown_lookup erk_methods [] (or_intror eq_refl)) name H3)].
  Qed.
  Lemma name_cases name : (exists m, In (name, m) irk_methods) \/ (exists m, In (name, m) erk_methods) \/ (~ In name (map fst irk_methods) /\ ~ In name (map fst erk_methods)).
  Proof.
    destruct (in_dec string_dec name (map fst irk_methods)) as [Hi|Hi]; [left; apply in_map_iff in Hi; destruct Hi as ((n & m) & <- & Hi); exists m; exact Hi|].
    destruct (in_dec string_dec name (map fst erk_methods)) as [He|He]; [right; left; apply in_map_iff in He; destruct He as ((n & m) & <- & He); exists m; exact He|]. auto.
  Qed.
End Names.

Section Runs.
  Context {T : Type} {HS : Scalar T} {HL : LinAlg T} {HE : Env T}.
  Notation W := (world T unit).
  Lemma int_unknown fuel F u Y0 w : ~ In (u_method u) (map fst irk_methods) -> ~ In (u_method u) (map fst erk_methods) -> int_equation fuel F u Y0 w = (w, Ok (-1)%Z).
  Proof. intros H1 H2. destruct (no_name _ H1 H2) as (N1 & N2). unfold int_equation. rewrite N1, N2. reflexivity. Qed.
  Lemma int_unset fuel F u Y0 w : In (u_method u) (map fst irk_methods ++ map fst erk_methods) -> u_time_internals u = None -> int_equation fuel F u Y0 w = (w, Err EUB).
  Proof.
    intros Hn Ht. unfold int_equation. rewrite Ht. destruct (name_cases (u_method u)) as [(m & Hm)|[(m & Hm)|[H1 H2]]].
    - destruct (irk_named _ _ Hm) as (N1 & N2). rewrite N1, (proj2 (Z.eqb_neq m 0) N2). reflexivity.
    - destruct (erk_named _ _ Hm) as (N0 & N1 & N2). rewrite N0, N1, (proj2 (Z.eqb_neq m 0) N2). reflexivity.
    - apply in_app_or in Hn. tauto.
  Qed.
  Lemma int_irk fuel F u Y0 w m b : In (u_method u, m) irk_methods -> u_time_internals u = Some b ->
    int_equation fuel F u Y0 w = (let (w', r) := irk_odeint fuel F (u_t0 u) (u_t1 u) Y0 (irk_user_options u) (user_output u) m (u_dt u) w in
                                  (w', match r with Ok _ => Ok 0%Z | Err e => Err e end)).
  Proof.
    intros Hm Ht. destruct (irk_named _ _ Hm) as (N1 & N2). unfold int_equation. rewrite Ht, N1, (proj2 (Z.eqb_neq m 0) N2). cbn [negb initialised]. unfold bind, ret.
    destruct (irk_odeint _ _ _ _ _ _ _ _ _ w) as (w' & [sol|e]) eqn:E; [|reflexivity].
    destruct (irk_limit _ _ _ _ _ _ _ _ _ _ _ _ E) as (rch & _ & Hs). cbn [irk_user_options io_max_steps io_adaptive irk_default_options] in Hs.
    destruct (irk_accounting _ _ _ _ _ _ _ _ _ _ _ _ E) as (_ & _ & _ & _ & _ & Ha).
    assert (Es : io_status sol = SUCCESS) by (destruct Hs as [(Es & _)|[(_ & _ & Es & _)|(_ & Es & _)]]; [exact Es|lia|discriminate Es]).
    destruct Ha as [(_ & _ & E2 & E3)|[(E1 & _)|(E1 & _)]]; [|rewrite Es in E1; discriminate E1|rewrite Es in E1; discriminate E1].
    rewrite Es, E2, E3. reflexivity.
  Qed.
  Lemma int_erk fuel F u Y0 w m b : In (u_method u, m) erk_methods -> u_time_internals u = Some b ->
    int_equation fuel F u Y0 w = (let (w', r) := erk_odeint fuel F (u_t0 u) (u_t1 u) Y0 (erk_user_options u) (user_output u) m (u_dt u) w in
                                  (w', match r with Ok _ => Ok 0%Z | Err e => Err e end)).
  Proof.
    intros Hm Ht. destruct (erk_named _ _ Hm) as (N0 & N1 & N2). unfold int_equation. rewrite Ht, N0, N1, (proj2 (Z.eqb_neq m 0) N2). cbn [negb initialised Z.eqb]. unfold bind, ret.
    destruct (erk_odeint _ _ _ _ _ _ _ _ _ w) as (w' & [sol|e]) eqn:E; [|reflexivity].
    pose proof (erk_limit _ _ _ _ _ _ _ _ _ _ _ _ E) as Hs. cbn [erk_user_options eo_max_steps erk_default_options] in Hs.
    pose proof (erk_accounting _ _ _ _ _ _ _ _ _ _ _ _ E) as Ha. cbv zeta in Hs, Ha.
    assert (Es : eo_status sol = SUCCESS) by (destruct Hs as [(Es & _)|(_ & _ & Es & _)]; [exact Es|lia]).
    destruct Ha as [(_ & _ & E2 & E3)|(E1 & _)]; [|rewrite Es in E1; discriminate E1].
    rewrite Es, E2, E3. reflexivity.
  Qed.
End Runs.

Section Calls.
  Context {T : Type} {HS : Scalar T} {HL : LinAlg T} {HE : Env T}.
  Notation W := (world T unit).
  Lemma int_call fuel F u Y0 w b w' r : u_time_internals u = Some b -> library_call fuel u F Y0 w w' r ->
    int_equation fuel F u Y0 w = (w', match r with Ok _ => Ok 0%Z | Err e => Err e end).
  Proof.
    assert (Eo : user_output u = output_of u) by (unfold user_output, output_of; destruct (u_output_fname u =? ""); reflexivity).
    intros Ht [m w1 r1 Hm Hc|m w1 r1 Hm Hc].
    - rewrite (int_irk _ _ _ _ _ _ _ Hm Ht), Eo. match type of Hc with irk_odeint _ _ _ _ _ ?o _ _ _ _ = _ => change o with (irk_user_options u) in Hc end. rewrite Hc. destruct r1; reflexivity.
    - rewrite (int_erk _ _ _ _ _ _ _ Hm Ht), Eo. match type of Hc with erk_odeint _ _ _ _ _ ?o _ _ _ _ = _ => change o with (erk_user_options u) in Hc end. rewrite Hc. destruct r1; reflexivity.
  Qed.
  Lemma call_exists fuel F u Y0 (w : W) : In (u_method u) (map fst irk_methods ++ map fst erk_methods) -> exists w' r, library_call fuel u F Y0 w w' r.
  Proof.
    intros Hn. destruct (name_cases (u_method u)) as [(m & Hm)|[(m & Hm)|[H1 H2]]]; [| |apply in_app_or in Hn; tauto].
    - destruct (irk_odeint fuel F (u_t0 u) (u_t1 u) Y0 (irk_user_options u) (output_of u) m (u_dt u) w) as (w' & r) eqn:E. eexists _, _. eapply call_irk; [exact Hm|exact E].
    - destruct (erk_odeint fuel F (u_t0 u) (u_t1 u) Y0 (erk_user_options u) (output_of u) m (u_dt u) w) as (w' & r) eqn:E. eexists _, _. eapply call_erk; [exact Hm|exact E].
  Qed.

  Lemma read_parameters i old : read_param (T := T) i old =
    match i with Some (Some x :: rest) => (Some rest, Some x) | Some (None :: _) => (None, Some (sZ 0)) | _ => (None, old) end.
  Proof. reflexivity. Qed.
  Lemma solve_problem fuel u word nums F Y0 w : problem (u_eq u) word nums F Y0 -> solve_equation fuel u word nums w = int_equation fuel F u Y0 w.
  Proof.
    remember (u_eq u) as q eqn:E. intros Hp. unfold solve_equation. rewrite <- E.
    destruct Hp as [wd nums l P|wd nums|wd nums Hw|wd nums m1 m2 m3 P|wd nums m1 m2 m3 P|wd nums mu P|wd nums a b P|wd nums r s b P]; cbn [String.eqb Ascii.eqb Bool.eqb].
    - unfold solve_exponential. destruct nums as [|[x|] nums]; cbn in P |- *; injection P as <-; reflexivity.
    - reflexivity.
    - unfold solve_robertson. cbn [In] in Hw. repeat (destruct Hw as [<-|Hw]; [reflexivity|]). contradiction.
    - unfold solve_three_body. destruct nums as [|[x|] [|[y|] [|[z|] nums]]]; cbn in P |- *; try discriminate P; injection P as <- <- <-; reflexivity.
    - unfold solve_three_body. destruct nums as [|[x|] [|[y|] [|[z|] nums]]]; cbn in P |- *; try discriminate P; injection P as <- <- <-; reflexivity.
    - unfold solve_van_der_pol. destruct nums as [|[x|] nums]; cbn in P |- *; injection P as <-; reflexivity.
    - unfold solve_brusselator. destruct nums as [|[x|] [|[y|] nums]]; cbn in P |- *; injection P as <- <-; reflexivity.
    - unfold solve_lorenz. destruct nums as [|[x|] [|[y|] [|[z|] nums]]]; cbn in P |- *; injection P as <- <- <-; reflexivity.
  Qed.
  Lemma solve_unknown fuel u word nums (w : W) : ~ In (u_eq u) equations -> solve_equation fuel u word nums w = (w, Ok (-1)%Z).
  Proof.
    intros Hn. unfold solve_equation. repeat match goal with |- context [if u_eq u =? ?s then _ else _] => destruct (String.eqb_spec (u_eq u) s) as [E|_]; [exfalso; apply Hn; rewrite E; unfold equations; cbn [In]; tauto|] end. reflexivity.
  Qed.
  Lemma solve_declined fuel u word nums (w : W) : u_eq u = "robertson" -> (forall a, word = Some a -> ~ In a ["Y"; "y"; "yes"; "Yes"]) -> solve_equation fuel u word nums w = (w, Ok 1%Z).
  Proof.
    intros E Hw. unfold solve_equation. rewrite E. cbn [String.eqb Ascii.eqb Bool.eqb]. unfold solve_robertson. destruct word as [a|]; [|reflexivity].
    specialize (Hw a eq_refl). cbn [In] in Hw.
    repeat match goal with |- context [a =? ?s] => destruct (String.eqb_spec a s) as [Ea|_]; [exfalso; apply Hw; rewrite Ea; tauto|] end. reflexivity.
  Qed.
  Lemma solve_missing fuel u word nums (w : W) : In (u_eq u) ["three-body"; "three-body-resume"] -> In None (parameters [None; None; None] nums) -> solve_equation fuel u word nums w = (w, Err EUB).
  Proof.
    intros Hin P. unfold solve_equation. cbn [In] in Hin.
    destruct Hin as [<-|[<-|[]]]; cbn [String.eqb Ascii.eqb Bool.eqb]; unfold solve_three_body; destruct nums as [|[x|] [|[y|] [|[z|] nums]]]; cbn in P |- *; try reflexivity; exfalso; intuition discriminate.
  Qed.
  (** every input gives one of these *)
  Lemma problem_cases q word nums : ~ In q equations \/ (q = "robertson" /\ forall a, word = Some a -> ~ In a ["Y"; "y"; "yes"; "Yes"]) \/
    (In q ["three-body"; "three-body-resume"] /\ In None (parameters (T := T) [None; None; None] nums)) \/ exists F Y0, problem q word nums F Y0.
  Proof.
    destruct (in_dec string_dec q equations) as [Hq|Hq]; [|left; exact Hq]. right.
    assert (P1 : forall d, exists l : T, parameters [Some d] nums = [Some l]) by (intros d; destruct nums as [|[x|] nums]; eexists; reflexivity).
    assert (P2 : forall d e, exists l m : T, parameters [Some d; Some e] nums = [Some l; Some m]) by (intros d e; destruct nums as [|[x|] [|[y|] nums]]; eexists _, _; reflexivity).
    assert (P3 : forall d e f, exists l m n : T, parameters [Some d; Some e; Some f] nums = [Some l; Some m; Some n]) by (intros d e f; destruct nums as [|[x|] [|[y|] [|[z|] nums]]]; eexists _, _, _; reflexivity).
    assert (P4 : In None (parameters (T := T) [None; None; None] nums) \/ exists l m n : T, parameters [None; None; None] nums = [Some l; Some m; Some n]).
    { destruct nums as [|[x|] [|[y|] [|[z|] nums]]]; cbn; try tauto; right; eexists _, _, _; reflexivity. }
    unfold equations in Hq. cbn [In] in Hq. destruct Hq as [<-|[<-|[<-|[<-|[<-|[<-|[<-|[<-|[]]]]]]]]].
    - right. right. destruct (P1 (slit 10 (-1))) as (l & P). eexists _, _. apply p_exponential. exact P.
    - right. right. eexists _, _. apply p_stiff.
    - destruct word as [a|]; [destruct (in_dec string_dec a ["Y"; "y"; "yes"; "Yes"]) as [Ha|Ha]|].
      + right. right. eexists _, _. apply p_robertson. exact Ha.
      + left. split; [reflexivity|]. intros a' [= <-]. exact Ha.
      + left. split; [reflexivity|]. discriminate.
    - right. destruct P4 as [P|(l & m & n & P)]; [left; split; [left; reflexivity|exact P]|right; eexists _, _; apply p_three; exact P].
    - right. destruct P4 as [P|(l & m & n & P)]; [left; split; [right; left; reflexivity|exact P]|right; eexists _, _; apply p_three_resume; exact P].
    - right. right. destruct (P1 (slit 5 (-1))) as (l & P). eexists _, _. apply p_vdpol. exact P.
    - right. right. destruct (P2 (slit 10 (-1)) (slit 25 (-1))) as (l & m & P). eexists _, _. apply p_bruss. exact P.
    - right. right. destruct (P3 (sZ 28) (sZ 10) (slit 80 (-1) /. slit 30 (-1))%sc) as (l & m & n & P). eexists _, _. apply p_lorenz. exact P.
  Qed.
End Calls.
