(** What the example program writes. *)
From Coq Require Import Reals Lra String.
From Verif Require Import Model.Base Model.Scalar Model.LinAlg Model.Enums Model.Options Model.Coeffs Model.ErkCoeffs Model.Newton Model.Erk Model.Irk Model.TestEquations Model.StabRegion Model.Examples.
From Verif Require Import Spec.Sums Spec.Trees Spec.RkSpec Spec.Methods Spec.Observe Spec.ErkSpec Spec.ExamplesSpec.
From Verif Require Import Proofs.ErkProofs Proofs.ErkRun Proofs.ErkGeneric Proofs.ErkTotal Proofs.ErkExact Proofs.ErkFinal Proofs.IrkResults Proofs.StabPoly Proofs.ExamplesParse Proofs.ExamplesMain.
Local Open Scope string_scope.

Section Silent.
  Context {T : Type} {HS : Scalar T} {HL : LinAlg T} {HE : Env T}.
  Lemma call_silent fuel u F Y0 (w w' : world T unit) : u_output_fname u = "" -> library_call fuel u F Y0 w w' (Ok tt) -> w_out w' = w_out w.
  Proof.
    intros Hf Hc. inversion Hc as [m w1 r Hm Hr Ew Er|m w1 r Hm Hr Ew Er]; subst w1; destruct r as [sol|]; try discriminate Er; unfold output_of in Hr; rewrite Hf in Hr; cbn [String.eqb] in Hr.
    - apply (proj1 (irk_file _ _ _ _ _ _ _ _ _ _ _ _ Hr)). reflexivity.
    - destruct (erk_file _ _ _ _ _ _ _ _ _ _ _ _ Hr) as (atts & _ & E & _). rewrite E. cbn. apply app_nil_r.
  Qed.
End Silent.

Section File.
  Context {HE : Env R} {HL : LinAlg R}.
  Local Open Scope list_scope.
  Local Open Scope R_scope.
  Lemma combine_attempts (l : list (attempt R)) : forall t0, Forall (fun a => at_ok a = true) l -> chained t0 l ->
    map (fun a => (at_t a, at_yn a)) l = combine (t0 :: map at_end l) (map at_yn l).
  Proof.
    induction l as [|a l IH]; intros t0 Ha Hc; [reflexivity|]. inversion Ha as [|? ? Ha1 Ha2]; subst. cbn [map combine]. f_equal; [f_equal; exact (Hc 0%nat a eq_refl)|].
    apply IH; [exact Ha2|]. intros k b Hk. specialize (Hc (S k) b Hk). rewrite Hc. cbn [firstn]. unfold time_after. cbn [fold_left]. rewrite Ha1. reflexivity.
  Qed.
  Lemma fixed_file {St} (F : functor R St) fuel t0 t1 y0 opts oo m dt w w' sol : In m explicit_methods -> eo_adaptive opts = false \/ ~ In m explicit_embedded ->
    erk_odeint fuel F t0 t1 y0 opts oo m dt w = (w', Ok sol) -> 
    w_out w' = w_out w ++ (if write_to_file oo then combine (eo_t_vals sol) (tl (eo_y_vals sol)) else []) /\ length (eo_y_vals sol) = length (eo_t_vals sol) /\
    Forall (fun y => length y = length y0) (eo_y_vals sol) /\ hd [] (eo_y_vals sol) = y0.
  Proof.
    intros Hm Hfix Hrun.
    destruct (erk_odeint_finished F false (fun _ => []) (fun _ _ _ => eq_refl) _ _ _ _ _ _ _ _ _ _ _ Hrun) as (_ & sc & a & b & _ & Hg & Hd & _ & _ & atts & O & A & Ef & _).
    assert (Eo : eo_adaptive (eff_opts opts sc) = false) by (apply (eff_fixed opts m Hm Hfix sc Hg)).
    assert (Hok : Forall (fun a => at_ok a = true) atts) by (pose proof (ao_ok _ _ _ _ _ _ A) as Hok; rewrite Eo in Hok; exact Hok).
    assert (Hacc : accepted atts = atts).
    { clear - Hok. induction Hok as [|x l Hx Hl IH]; [reflexivity|]. unfold accepted in * . simpl. rewrite Hx, IH. reflexivity. }
    rewrite (ok_t _ _ _ _ _ O), (ok_y _ _ _ _ _ O), Hacc. cbn [tl length hd]. rewrite !map_length. split; [|split; [reflexivity|split; [|reflexivity]]].
    - rewrite Ef. unfold file_lines. destruct (write_to_file oo); [|reflexivity]. f_equal. apply combine_attempts; [exact Hok|exact (ao_chain _ _ _ _ _ _ A)].
    - pose proof (ok_ydim _ _ _ _ _ O) as Hy. rewrite (ok_y _ _ _ _ _ O), Hacc in Hy. exact Hy.
  Qed.

  Lemma factor_method name factor : In (name, factor) fixed_step_factors -> exists m sc, In (name, m) erk_methods /\ In m explicit_methods /\ ~ In m explicit_embedded /\
    erk_get_coefficients m = Ok sc /\ forall z, stability (length (sc_b sc)) (mentry (sc_A sc)) (ventry (sc_b sc)) z = factor z.
  Proof.
    unfold fixed_step_factors. cbn [In]. intros [E|[E|[]]]; injection E as <- <-.
    - destruct (TablesGeneric.erk_get_ok (T := R) EXPLICIT_EULER) as (sc & Hg & _). exists EXPLICIT_EULER, sc. split; [cbn; tauto|]. split; [cbn; tauto|].
      split; [cbn; intuition discriminate|]. split; [exact Hg|]. intros z. exact (poly_euler sc z Hg).
    - destruct (TablesGeneric.erk_get_ok (T := R) RUNGE_KUTTA_4) as (sc & Hg & _). exists RUNGE_KUTTA_4, sc. split; [cbn; tauto|]. split; [cbn; tauto|].
      split; [cbn; intuition discriminate|]. split; [exact Hg|]. intros z. exact (poly_rk4 sc z Hg).
  Qed.
  Lemma combine_lines (f : R -> R) (l t0 t1 dt : R) N ts ys : (1 <= N)%nat -> ts = map (fun k => t0 + INR k * dt) (seq 0 N) ++ [t1] -> length ys = length ts ->
    Forall (fun y => length y = 1%nat) ys -> ventry (nth 0 ys []) 0 = 1 ->
    (forall k, (S k < length ys)%nat -> ventry (nth (S k) ys []) 0 = f (l * (nth (S k) ts 0 - nth k ts 0)) * ventry (nth k ys []) 0) ->
    combine ts (tl ys) = exponential_lines f l t0 t1 dt N.
  Proof.
    intros HN Ets Ly Hd H0 Hstep.
    assert (Lt : length ts = S N) by (rewrite Ets, app_length, map_length, seq_length; cbn; lia).
    assert (Tk : forall k, (k < N)%nat -> nth k ts 0 = t0 + INR k * dt).
    { intros k Hk. rewrite Ets, app_nth1 by (rewrite map_length, seq_length; exact Hk). rewrite (nth_indep _ 0 (t0 + INR 0 * dt)) by (rewrite map_length, seq_length; exact Hk).
      rewrite (map_nth (fun k => t0 + INR k * dt)), seq_nth by exact Hk. reflexivity. }
    assert (TN : nth N ts 0 = t1) by (rewrite Ets, app_nth2 by (rewrite map_length, seq_length; lia); rewrite map_length, seq_length, Nat.sub_diag; reflexivity).
    assert (Y : forall k, (k < N)%nat -> ventry (nth k ys []) 0 = f (l * dt) ^ k).
    { induction k as [|k IH]; intros Hk; [exact H0|]. rewrite Hstep by lia. rewrite IH by lia. rewrite !Tk by lia. rewrite S_INR.
      replace (t0 + (INR k + 1) * dt - (t0 + INR k * dt)) with dt by ring. reflexivity. }
    assert (YN : ventry (nth N ys []) 0 = f (l * (t1 - (t0 + INR (N - 1) * dt))) * f (l * dt) ^ (N - 1)).
    { destruct N as [|N]; [lia|]. rewrite Hstep by lia. rewrite TN, Tk by lia. rewrite Y by lia. replace (S N - 1)%nat with N by lia. reflexivity. }
    assert (One : forall k, (k <= N)%nat -> nth k ys [] = [ventry (nth k ys []) 0]).
    { intros k Hk. assert (L : length (nth k ys []) = 1%nat) by (apply (Forall_nth (fun y => length y = 1%nat) ys); [exact Hd|lia]).
      destruct (nth k ys []) as [|x [|]]; try discriminate L. reflexivity. }
    destruct ys as [|y ys]; [cbn in Ly; lia|]. cbn [tl]. cbn [length] in Ly.
    apply (nth_ext _ _ (0, []) (0, [])).
    { rewrite combine_length. unfold exponential_lines. rewrite app_length, map_length, seq_length. cbn [length]. lia. }
    intros k Hk. rewrite combine_length in Hk. assert (Hk' : (k < N)%nat) by lia. 
    rewrite combine_firstn_r. assert (Ln : length ys = N) by lia. rewrite Ln, combine_nth by (rewrite firstn_length; lia).
    assert (Et : nth k (firstn N ts) 0 = t0 + INR k * dt) by (rewrite <- (Tk k Hk'); rewrite <- (firstn_skipn N ts) at 2; rewrite app_nth1 by (rewrite firstn_length; lia); reflexivity).
    rewrite Et. change (nth k ys []) with (nth (S k) (y :: ys) []). rewrite One by lia. unfold exponential_lines. destruct (Nat.eq_dec (S k) N) as [E|E].
    - rewrite E, YN. rewrite app_nth2 by (rewrite map_length, seq_length; lia). rewrite map_length, seq_length. replace (k - (N - 1))%nat with 0%nat by lia.
      replace (N - 1)%nat with k by lia. reflexivity.
    - rewrite Y by lia. rewrite app_nth1 by (rewrite map_length, seq_length; lia). rewrite (nth_indep _ (0, []) (t0 + INR 0 * dt, [f (l * dt) ^ 1])) by (rewrite map_length, seq_length; lia).
      rewrite (map_nth (fun k => (t0 + INR k * dt, [f (l * dt) ^ S k]))), seq_nth by lia. reflexivity.
  Qed.
  Lemma exponential_call {HX : ExactProducts HL} u l name factor w : In (name, factor) fixed_step_factors -> u_method u = name -> u_output_fname u <> "" -> u_t0 u < u_t1 u -> 0 < u_dt u ->
    exists n N w', (1 <= N)%nat /\ INR (N - 1) * u_dt u < u_t1 u - u_t0 u <= INR N * u_dt u /\
      (forall fuel, (n <= fuel)%nat -> library_call fuel u (exponential l) [Rlit 10 (-1)] w w' (Ok tt)) /\
      w_out w' = w_out w ++ exponential_lines factor l (u_t0 u) (u_t1 u) (u_dt u) N.
  Proof.
    intros Hf Hn Hfile Ht Hdt. destruct (factor_method name factor Hf) as (m & sc & Hm & He & Hemb & Hg & Hst).
    destruct (fixed_final HE HL unit (exponential l) (u_t0 u) (u_t1 u) [Rlit 10 (-1)] (ErkOptions true (u_rel_tol u) (u_abs_tol u) 0 (-1)) (OutputOptions 2 1 (Some 0%nat)) m (u_dt u)) with (w := w)
      as (n & w' & sol & Hr & _ & Hgrid & Hs); try assumption; [|discriminate|right; exact Hemb|].
    { intros t y s Hy. exists s. eexists. split; [reflexivity|]. unfold vscale. rewrite map_length. exact Hy. }
    destruct (Hgrid (Hs ltac:(cbn; lia))) as (N & HN & Hb & Ets). pose proof (Hr n (le_n n)) as Hrun.
    destruct (fixed_file _ _ _ _ _ _ _ _ _ _ _ _ He (or_intror Hemb) Hrun) as (Eout & Ly & Hd & H0). change (write_to_file (OutputOptions 2 1 (Some 0%nat))) with true in Eout. cbv iota in Eout.
    exists n, N, w'. split; [exact HN|]. split; [exact Hb|]. split.
    - intros fuel Hfu. specialize (Hr fuel Hfu). pose proof (call_erk (T := R) fuel u (exponential l) [Rlit 10 (-1)] w m w' (Ok sol)) as Hc. cbv iota in Hc. apply Hc; [rewrite Hn; exact Hm|].
      unfold output_of. destruct (String.eqb_spec (u_output_fname u) ""); [contradiction|]. exact Hr.
    - rewrite Eout. f_equal. apply combine_lines; try assumption.
      + destruct (eo_y_vals sol) as [|y ys]; [discriminate H0|]. cbn [hd] in H0. subst y. cbn. unfold Rlit. cbn. lra.
      + assert (HF : computes (exponential (St := unit) l) (fun t y => vscale l y)) by (intros t y s v E; cbn in E; injection E as <-; reflexivity).
        assert (Hl : forall (t : R) y q, length y = length [Rlit 10 (-1)] -> (q < length [Rlit 10 (-1)])%nat -> ventry (vscale l y) q = l * ventry y q).
        { intros t y q Hy Hq. cbn [length] in Hy, Hq. destruct y as [|x [|]]; try discriminate Hy. assert (q = 0%nat) by lia. subst q. reflexivity. }
        destruct (erk_linear (X := HX) (exponential l) _ HF _ _ _ _ _ _ _ _ _ _ _ Hrun l Hl) as (sc' & Hg' & Hlin & _).
        assert (sc' = sc) by congruence. subst sc'. intros k Hk. rewrite (Hlin k 0%nat Hk ltac:(cbn; lia)). f_equal. apply Hst.
  Qed.
End File.

Lemma pair_inj {A B} (a c : A) (b d : B) : (a, b) = (c, d) -> a = c /\ b = d.
Proof. intros [= -> ->]. auto. Qed.
Section Program.
  Context {T : Type} {HS : Scalar T} {HL : LinAlg T} {HE : Env T}.
  Variables (stof : string -> option T) (stoi : string -> option Z).
  Notation main := (examples_main stof stoi).
  Notation line ss := (concat (map words ss)).
  Lemma main_empty fuel word nums w : main fuel [] word nums w = (w, Ok 3%Z).
  Proof. reflexivity. Qed.
  Lemma words_cons s : exists a l, words s = (a :: l)%list.
  Proof. destruct s; eexists _, _; reflexivity. Qed.
  Lemma main_parse fuel args word nums w : args <> [] -> main fuel args word nums w =
    match parse_opts stof stoi args user_default with
    | Ok (c, u) => if (c <? 0)%Z then (w, Ok (-1)%Z) else if (0 <? c)%Z then (w, Ok 0%Z) else solve_equation fuel u word nums w
    | Err e => (w, Err e)
    end.
  Proof.
    intros Hn. destruct args as [|a args]; [contradiction|]. unfold examples_main, bind, lift.
    destruct (parse_opts stof stoi (a :: args) user_default) as [(c & u)|e]; [|reflexivity]. destruct (c <? 0)%Z; [reflexivity|]. destruct (0 <? c)%Z; reflexivity.
  Qed.
  Lemma main_solves fuel ss word nums w : ss <> [] -> Forall (readable stof stoi) ss -> main fuel (line ss) word nums w = solve_equation fuel (options_of stof stoi ss) word nums w.
  Proof.
    intros Hn Hr. rewrite main_parse, (parse_accepts stof stoi ss Hr); [reflexivity|]. destruct ss as [|s ss]; [contradiction|]. cbn. destruct (words_cons s) as (a & l & ->). discriminate.
  Qed.
  Lemma main_stops fuel ss rest r word nums w : Forall (readable stof stoi) ss -> stops stof stoi rest r ->
    main fuel (line ss ++ rest) word nums w = (w, match r with Ok c => Ok (if (c <? 0)%Z then -1 else 0)%Z | Err e => Err e end).
  Proof.
    intros Hr Hs. assert (Hc : r = Ok 0%Z -> False) by (intros ->; inversion Hs).
    assert (Hn : (line ss ++ rest)%list <> []) by (intros E; apply app_eq_nil in E; destruct E as [_ ->]; inversion Hs).
    rewrite main_parse by exact Hn. pose proof (parse_stops stof stoi ss rest r Hr Hs) as E. unfold code in E.
    destruct (parse_opts stof stoi (line ss ++ rest) user_default) as [(c & u)|e]; subst r; [|reflexivity].
    destruct (c <? 0)%Z eqn:E1; [reflexivity|]. destruct (0 <? c)%Z eqn:E2; [reflexivity|]. exfalso. apply Hc. f_equal. lia.
  Qed.
  Lemma timing_given ss : Forall (readable stof stoi) ss -> (exists v, In (STiming v) ss) -> exists b, u_time_internals (options_of stof stoi ss) = Some b.
  Proof.
    induction ss as [|s ss IH] using rev_ind; intros Hr (v & Hv); [contradiction|]. apply Forall_app in Hr. destruct Hr as [Hr Hs]. inversion Hs as [|? ? Hs' _]; subst.
    unfold options_of. cbn [u_time_internals]. rewrite last_value_snoc. apply in_app_or in Hv. destruct Hv as [Hv|[->|[]]].
    - destruct (IH Hr (ex_intro _ v Hv)) as (b & Hb). unfold options_of in Hb. cbn [u_time_internals] in Hb.
      destruct s; try (exists b; exact Hb). destruct (stoi v0); [eexists; reflexivity|exists b; exact Hb].
    - cbn [readable] in Hs'. destruct Hs' as [-> | ->]; eexists; reflexivity.
  Qed.
  Lemma timing_missing ss : (forall v, ~ In (STiming v) ss) -> u_time_internals (options_of stof stoi ss) = None.
  Proof.
    induction ss as [|s ss IH] using rev_ind; intros Hv; [reflexivity|]. unfold options_of. cbn [u_time_internals]. rewrite last_value_snoc.
    assert (IH' : u_time_internals (options_of stof stoi ss) = None) by (apply IH; intros v Hin; apply (Hv v); apply in_or_app; left; exact Hin). unfold options_of in IH'. cbn [u_time_internals] in IH'.
    destruct s; try exact IH'. exfalso. apply (Hv v). apply in_or_app. right. left. reflexivity.
  Qed.
  Lemma timing_dec ss : (exists v, In (STiming v) ss) \/ (forall v, ~ In (STiming v) ss).
  Proof.
    induction ss as [|s ss IH]; [right; intros v []|]. destruct IH as [(v & Hv)|Hn]; [left; exists v; right; exact Hv|].
    destruct s as [v|v|v v2|v|v|v|v|v|v]; try (right; intros v' [E|E]; [discriminate E|exact (Hn v' E)]). left. exists v. left. reflexivity.
  Qed.
  Notation known := (map fst irk_methods ++ map fst erk_methods)%list.
  Lemma main_known fuel ss word nums F Y0 w : ss <> [] -> Forall (readable stof stoi) ss -> let u := options_of stof stoi ss in problem (u_eq u) word nums F Y0 ->
    (~ In (u_method u) known -> main fuel (line ss) word nums w = (w, Ok (-1)%Z)) /\
    (In (u_method u) known -> (forall v, ~ In (STiming v) ss) -> main fuel (line ss) word nums w = (w, Err EUB)) /\
    (forall w' r, (exists v, In (STiming v) ss) -> library_call fuel u F Y0 w w' r -> main fuel (line ss) word nums w = (w', match r with Ok _ => Ok 0%Z | Err e => Err e end)).
  Proof.
    intros Hn Hr u Hp. rewrite main_solves by assumption. fold u. rewrite (solve_problem fuel u word nums F Y0 w Hp). split; [|split].
    - intros Hk. apply int_unknown; intros Hin; apply Hk; apply in_or_app; auto.
    - intros Hk Ht. apply int_unset; [exact Hk|]. apply timing_missing. exact Ht.
    - intros w' r Ht Hc. destruct (timing_given ss Hr Ht) as (b & Hb). exact (int_call fuel F u Y0 w b w' r Hb Hc).
  Qed.
  Lemma main_refused fuel ss word nums w : ss <> [] -> Forall (readable stof stoi) ss -> let u := options_of stof stoi ss in
    (~ In (u_eq u) equations -> main fuel (line ss) word nums w = (w, Ok (-1)%Z)) /\
    (u_eq u = "robertson" -> (forall a, word = Some a -> ~ In a ["Y"; "y"; "yes"; "Yes"]) -> main fuel (line ss) word nums w = (w, Ok 1%Z)) /\
    (In (u_eq u) ["three-body"; "three-body-resume"] -> In None (parameters [None; None; None] nums) -> main fuel (line ss) word nums w = (w, Err EUB)).
  Proof.
    intros Hn Hr u. rewrite main_solves by assumption. fold u. split; [|split].
    - apply solve_unknown.
    - apply solve_declined.
    - apply solve_missing.
  Qed.
  (** the ways a run can return *)
  Lemma main_returns fuel args word nums w w' c : main fuel args word nums w = (w', Ok c) ->
    (args = [] /\ c = 3%Z /\ w' = w) \/
    (exists ss, ss <> [] /\ args = line ss /\ Forall (readable stof stoi) ss /\ let u := options_of stof stoi ss in
       (~ In (u_eq u) equations /\ c = (-1)%Z /\ w' = w) \/
       (u_eq u = "robertson" /\ (forall a, word = Some a -> ~ In a ["Y"; "y"; "yes"; "Yes"]) /\ c = 1%Z /\ w' = w) \/
       (exists F Y0, problem (u_eq u) word nums F Y0 /\
          ((~ In (u_method u) known /\ c = (-1)%Z /\ w' = w) \/ ((exists v, In (STiming v) ss) /\ library_call fuel u F Y0 w w' (Ok tt) /\ c = 0%Z)))) \/
    (exists ss rest r, args = (line ss ++ rest)%list /\ Forall (readable stof stoi) ss /\ stops stof stoi rest (Ok r) /\ c = (if (r <? 0)%Z then -1 else 0)%Z /\ w' = w).
  Proof.
    intros Hm. destruct args as [|a args]; [left; apply pair_inj in Hm; destruct Hm as [<- [= <-]]; auto|]. right.
    destruct (parse_total stof stoi (a :: args)) as (ss & rest & Ea & Hr & Hrest). rewrite Ea in Hm. destruct Hrest as [->|(r & Hs)].
    - left. rewrite app_nil_r in Ea, Hm. assert (Hn : ss <> []) by (intros ->; discriminate Ea). exists ss. split; [exact Hn|]. split; [exact Ea|]. split; [exact Hr|]. set (u := options_of stof stoi ss). cbv zeta.
      destruct (main_refused fuel ss word nums w Hn Hr) as (R1 & R2 & R3). fold u in R1, R2, R3.
      destruct (problem_cases (u_eq u) word nums) as [H1|[[H1 H2]|[[H1 H2]|(F & Y0 & Hp)]]].
      + left. rewrite (R1 H1) in Hm. apply pair_inj in Hm. destruct Hm as [<- [= <-]]. auto.
      + right. left. rewrite (R2 H1 H2) in Hm. apply pair_inj in Hm. destruct Hm as [<- [= <-]]. auto.
      + rewrite (R3 H1 H2) in Hm. apply pair_inj in Hm. destruct Hm as [_ Hm]. discriminate Hm.
      + right. right. exists F, Y0. split; [exact Hp|]. destruct (main_known fuel ss word nums F Y0 w Hn Hr Hp) as (K1 & K2 & K3). fold u in K1, K2, K3.
        destruct (in_dec string_dec (u_method u) known) as [Hk|Hk].
        * right. destruct (timing_dec ss) as [Ht|Ht].
          -- split; [exact Ht|]. destruct (call_exists fuel F u Y0 w Hk) as (w1 & r & Hc). rewrite (K3 w1 r Ht Hc) in Hm. apply pair_inj in Hm. destruct Hm as [<- Hm].
             destruct r as [[]|e]; [injection Hm as <-; auto|discriminate Hm].
          -- rewrite (K2 Hk Ht) in Hm. apply pair_inj in Hm. destruct Hm as [_ Hm]. discriminate Hm.
        * left. rewrite (K1 Hk) in Hm. apply pair_inj in Hm. destruct Hm as [<- [= <-]]. auto.
    - right. rewrite (main_stops fuel ss rest r word nums w Hr Hs) in Hm. apply pair_inj in Hm. destruct Hm as [<- Hm]. destruct r as [r|]; [|discriminate Hm]. injection Hm as <-. eauto 10.
  Qed.
  Lemma main_codes fuel args word nums w w' c : main fuel args word nums w = (w', Ok c) ->
    In c [-1; 0; 1; 3]%Z /\ (c <> 0%Z -> w' = w) /\
    (c = 0%Z -> w_out w' <> w_out w -> exists ss, args = line ss /\ (exists v, In (STiming v) ss) /\ (exists v, In (SFile v) ss)).
  Proof.
    intros Hm. destruct (main_returns _ _ _ _ _ _ _ Hm) as [(-> & -> & ->)|[(ss & Hn & -> & Hr & Hc)|(ss & rest & r & -> & Hr & Hs & -> & ->)]].
    - split; [cbn; tauto|]. split; [reflexivity|discriminate].
    - cbv zeta in Hc. destruct Hc as [(_ & -> & ->)|[(_ & _ & -> & ->)|(F & Y0 & Hp & [(_ & -> & ->)|(Ht & Hc & ->)])]]; (split; [cbn; tauto|]); (split; [try reflexivity; contradiction|]); try discriminate.
      intros _ Hw. exists ss. split; [reflexivity|]. split; [exact Ht|].
      assert (Hf : u_output_fname (options_of stof stoi ss) <> "") by (intros E; apply Hw; exact (call_silent _ _ _ _ _ _ E Hc)).
      clear - Hf. induction ss as [|s ss IH] using rev_ind; [contradiction|]. unfold options_of in Hf, IH. cbn [u_output_fname] in Hf, IH. rewrite last_value_snoc in Hf.
      destruct s; try (destruct (IH Hf) as (v' & Hv); exists v'; apply in_or_app; left; exact Hv). eexists. apply in_or_app. right. left. reflexivity.
    - split; [destruct (r <? 0)%Z; cbn; tauto|]. split; [reflexivity|]. intros _ E. contradiction.
  Qed.
  Lemma batch_undefined fuel (w : world T unit) : run_batch fuel w = (w, Err EUB).
  Proof. unfold run_batch, bind. rewrite int_unset; [reflexivity|cbn; tauto|reflexivity]. Qed.
End Program.

Lemma main_exponential {HE : Env R} {HL : LinAlg R} {HX : ExactProducts HL} stof stoi ss word nums l factor w :
  ss <> [] -> Forall (readable stof stoi) ss -> (exists v, In (STiming v) ss) -> let u := options_of stof stoi ss in
  u_eq u = "exponential" -> In (u_method u, factor) fixed_step_factors -> u_output_fname u <> "" -> (u_t0 u < u_t1 u)%R -> (0 < u_dt u)%R ->
  parameters [Some 1%R] nums = [Some l] ->
  exists n N w', (1 <= N)%nat /\ (INR (N - 1) * u_dt u < u_t1 u - u_t0 u <= INR N * u_dt u)%R /\
    (forall fuel, (n <= fuel)%nat -> examples_main stof stoi fuel (concat (map words ss)) word nums w = (w', Ok 0%Z)) /\
    w_out w' = (w_out w ++ exponential_lines factor l (u_t0 u) (u_t1 u) (u_dt u) N)%list.
Proof.
  intros Hn Hr Ht u He Hf Hfile Ht01 Hdt Hl.
  destruct (exponential_call u l _ factor w Hf eq_refl Hfile Ht01 Hdt) as (n & N & w' & HN & Hb & Hc & Ho). exists n, N, w'. split; [exact HN|]. split; [exact Hb|]. split; [|exact Ho].
  intros fuel Hfu. assert (Hp : problem (u_eq u) word nums (exponential l) [Rlit 10 (-1)]).
  { rewrite He. refine (p_exponential word nums l _). change (slit 10 (-1)) with (Rlit 10 (-1)). replace (Rlit 10 (-1)) with 1%R; [exact Hl|]. unfold Rlit. cbn. lra. }
  destruct (main_known stof stoi fuel ss word nums _ _ w Hn Hr Hp) as (_ & _ & K). exact (K w' (Ok tt) Ht (Hc fuel Hfu)).
Qed.

Lemma parse_stops_explicit {T : Type} {HS : Scalar T} stof stoi ss rest r : Forall (readable stof stoi) ss -> stops stof stoi rest r ->
  match r with
  | Ok c => exists u, parse_opts (T := T) stof stoi (concat (map words ss) ++ rest) user_default = Ok (c, u)
  | Err e => parse_opts (T := T) stof stoi (concat (map words ss) ++ rest) user_default = Err e
  end.
Proof.
  intros Hr Hs. pose proof (parse_stops stof stoi ss rest r Hr Hs) as E. unfold code in E.
  destruct (parse_opts stof stoi (concat (map words ss) ++ rest) user_default) as [(c & u)|e]; subst r; [exists u; reflexivity|reflexivity].
Qed.
Section Final.
  Context {T : Type} {HS : Scalar T} {HL : LinAlg T} {HE : Env T}.
  Lemma main_untimed (stof : string -> option T) stoi fuel ss word nums F Y0 w : ss <> [] -> Forall (readable stof stoi) ss -> let u := options_of stof stoi ss in
    problem (u_eq u) word nums F Y0 -> In (u_method u) (map fst irk_methods ++ map fst erk_methods)%list ->
    (forall v, ~ In (STiming v) ss) -> examples_main stof stoi fuel (concat (map words ss)) word nums w = (w, Err EUB).
  Proof. intros Hn Hr u Hp Hk Ht. exact (proj1 (proj2 (main_known stof stoi fuel ss word nums F Y0 w Hn Hr Hp)) Hk Ht). Qed.
  Lemma main_calls (stof : string -> option T) stoi fuel ss word nums F Y0 w w' r : ss <> [] -> Forall (readable stof stoi) ss -> (exists v, In (STiming v) ss) ->
    let u := options_of stof stoi ss in problem (u_eq u) word nums F Y0 -> library_call fuel u F Y0 w w' r ->
    examples_main stof stoi fuel (concat (map words ss)) word nums w = (w', match r with Ok _ => Ok 0%Z | Err e => Err e end).
  Proof. intros Hn Hr Ht u Hp Hc. exact (proj2 (proj2 (main_known stof stoi fuel ss word nums F Y0 w Hn Hr Hp)) w' r Ht Hc). Qed.
  Lemma main_refusals (stof : string -> option T) stoi fuel word nums w :
    let main args := examples_main stof stoi fuel args word nums w in
    main [] = (w, Ok 3%Z) /\
    (forall ss rest r, Forall (readable stof stoi) ss -> stops stof stoi rest r ->
       main (concat (map words ss) ++ rest)%list = (w, match r with Ok c => Ok (if (c <? 0)%Z then -1 else 0)%Z | Err e => Err e end)) /\
    forall ss, ss <> [] -> Forall (readable stof stoi) ss -> let u := options_of stof stoi ss in
      (~ In (u_eq u) equations -> main (concat (map words ss)) = (w, Ok (-1)%Z)) /\
      (u_eq u = "robertson" -> (forall a, word = Some a -> ~ In a ["Y"; "y"; "yes"; "Yes"]) -> main (concat (map words ss)) = (w, Ok 1%Z)) /\
      (In (u_eq u) ["three-body"; "three-body-resume"] -> In None (parameters [None; None; None] nums) -> main (concat (map words ss)) = (w, Err EUB)) /\
      (forall F Y0, problem (u_eq u) word nums F Y0 -> ~ In (u_method u) (map fst irk_methods ++ map fst erk_methods)%list -> main (concat (map words ss)) = (w, Ok (-1)%Z)).
  Proof.
    cbv zeta. split; [reflexivity|]. split; [intros ss rest r Hr Hs; apply main_stops; assumption|]. intros ss Hn Hr.
    destruct (main_refused stof stoi fuel ss word nums w Hn Hr) as (R1 & R2 & R3). split; [exact R1|]. split; [exact R2|]. split; [exact R3|].
    intros F Y0 Hp Hk. exact (proj1 (main_known stof stoi fuel ss word nums F Y0 w Hn Hr Hp) Hk).
  Qed.
End Final.
