(** The files the program of stability_region/ writes. *)
From Coq Require Import Reals Lra String.
From Verif Require Import Model.Base Model.Scalar Model.LinAlg Model.Enums Model.Coeffs Model.IrkCoeffs Model.ErkCoeffs Model.StabRegion.
From Verif Require Import Spec.Sums Spec.Trees Spec.RkSpec Spec.NewtonSpec Spec.Methods Spec.StabilitySpec Spec.ComplexSpec.
From Verif Require Import Proofs.SumsProofs Proofs.RVec Proofs.EnumsProofs Proofs.TablesGeneric Proofs.ErkProofs Proofs.IrkGeneric Proofs.ErkGeneric Proofs.TablesFinal Proofs.RkExact Proofs.StabRegionProofs.
Local Open Scope R_scope.

Lemma pair_inj {A B} (a c : A) (b d : B) : (a, b) = (c, d) -> a = c /\ b = d.
Proof. intros H. split; [exact (f_equal fst H)|exact (f_equal snd H)]. Qed.

(** ** Loops *)
Lemma mapR_ok {A B} (f : A -> res B) l : forall r, mapR f l = Ok r -> Forall2 (fun a b => f a = Ok b) l r.
Proof.
  induction l as [|a l IH]; intros r; cbn [mapR]; [intros E; injection E as <-; constructor|]. destruct (f a) as [b|] eqn:Ef; [|discriminate]. cbn [rbind].
  destruct (mapR f l) as [bs|] eqn:El; [|discriminate]. cbn [rbind]. intros E. injection E as <-. constructor; [exact Ef|]. apply IH. reflexivity.
Qed.
Lemma mapR_err {A B} (f : A -> res B) l e : mapR f l = Err e -> exists a, In a l /\ f a = Err e.
Proof.
  induction l as [|a l IH]; cbn [mapR]; [discriminate|]. destruct (f a) as [b|e'] eqn:Ef; cbn [rbind].
  - destruct (mapR f l) as [bs|e'] eqn:El; cbn [rbind]; [discriminate|]. intros E. injection E as ->. destruct (IH eq_refl) as (x & Hx & E). exists x. split; [right; exact Hx|exact E].
  - intros E. injection E as ->. exists a. split; [left; reflexivity|exact Ef].
Qed.
Lemma mapR_all {A B} (f : A -> res B) (g : A -> B) l : (forall a, In a l -> f a = Ok (g a)) -> mapR f l = Ok (map g l).
Proof.
  induction l as [|a l IH]; intros H; [reflexivity|]. cbn [mapR map]. rewrite (H a (or_introl eq_refl)). cbn [rbind]. rewrite IH by (intros; apply H; right; assumption). reflexivity.
Qed.
Lemma mapR_first {A B} (f : A -> res B) a l e : f a = Err e -> mapR f (a :: l) = Err e.
Proof. intros H. cbn [mapR]. rewrite H. reflexivity. Qed.
Lemma F2_nth {A B} (P : A -> B -> Prop) l r i x : Forall2 P l r -> nth_error l i = Some x -> exists y, nth_error r i = Some y /\ P x y.
Proof. intros H. revert i. induction H as [|a b l r Hab H IH]; intros [|i] E; try discriminate; cbn in *; [injection E as <-; eauto|apply IH, E]. Qed.

Section Generic.
  Context {T : Type} `{Scalar T} `{Env T} `{CxAlg T}.
  Lemma row_lines (S : list (list T)) j y (val : T -> T) X : forall k w, (forall i x, nth_error X i = Some x -> sget S (k + i) j = Ok (val x)) ->
    foldM (fun (ix : nat * T) _ => bind (lift (sget S (fst ix) j)) (fun v => put (Nums [snd ix; y; v]))) (combine (seq k (length X)) X) tt w = (w ++ map (fun x => Nums [x; y; val x]) X, Ok tt).
  Proof.
    induction X as [|x X IH]; intros k w HS; [cbn; rewrite app_nil_r; reflexivity|]. cbn [length seq combine foldM map]. unfold bind at 1, lift. cbn [fst snd].
    pose proof (HS 0%nat x eq_refl) as E. rewrite Nat.add_0_r in E. unfold bind at 1. rewrite E. unfold put at 1. rewrite IH.
    - rewrite <- app_assoc. reflexivity.
    - intros i x' Hx. replace (Datatypes.S k + i)%nat with (k + Datatypes.S i)%nat by lia. apply HS. exact Hx.
  Qed.
  Lemma grid_lines (S : list (list T)) (val : T -> T -> T) (X Y : list T) n : n = length X -> forall k w, (forall i x j y, nth_error X i = Some x -> nth_error Y j = Some y -> sget S i (k + j) = Ok (val x y)) ->
    foldM (fun (jy : nat * T) _ => bind (foldM (fun (ix : nat * T) _ => bind (lift (sget S (fst ix) (fst jy))) (fun v => put (Nums [snd ix; snd jy; v]))) (combine (seq 0 n) X) tt) (fun _ => put Blank))
      (combine (seq k (length Y)) Y) tt w = (w ++ flat_map (fun y => map (fun x => Nums [x; y; val x y]) X ++ [Blank]) Y, Ok tt).
  Proof.
    intros ->. induction Y as [|y Y IH]; intros k w HS; [cbn; rewrite app_nil_r; reflexivity|]. cbn [length seq combine foldM flat_map]. unfold bind at 1, bind at 1. cbn [fst snd].
    rewrite (row_lines S k y (fun x => val x y) X 0 w).
    - unfold put at 1. rewrite IH.
      + rewrite <- !app_assoc. reflexivity.
      + intros i x j y' Hx Hy. replace (Datatypes.S k + j)%nat with (k + Datatypes.S j)%nat by lia. apply HS; assumption.
    - intros i x Hx. cbn [Nat.add]. replace k with (k + 0)%nat by lia. apply HS; [exact Hx|reflexivity].
  Qed.
  Lemma linspace_length (a b : T) n : (1 <= n)%nat -> length (linspace a b n) = n.
  Proof. intros Hn. unfold linspace. rewrite app_length, vtab_length. cbn [length]. lia. Qed.

  Definition cell (sc : solver_coeffs T) (emb : bool) (x y : T) : res T :=
    rbind (stability_function (x, y) (sc_A sc) (if emb then sc_b2 sc else sc_b sc)) (fun v => Ok (cx_abs v)).
  Lemma region_get sc emb X Y S : rk_to_stab_region X Y sc emb = Ok S -> forall i x j y, nth_error X i = Some x -> nth_error Y j = Some y -> exists v, sget S i j = Ok v /\ cell sc emb x y = Ok v.
  Proof.
    intros E i x j y Hx Hy. apply mapR_ok in E. destruct (F2_nth _ _ _ _ _ E Hx) as (r & Hr & Er). apply mapR_ok in Er. destruct (F2_nth _ _ _ _ _ Er Hy) as (v & Hv & Ev).
    exists v. unfold sget. rewrite Hr, Hv. split; [reflexivity|exact Ev].
  Qed.

  (** the names *)
  Lemma irk_name name m : In (name, m) irk_methods -> irk_id name = m /\ erk_id name = 0%Z /\ m <> 0%Z.
  Proof. unfold irk_methods. cbn [In]. intros Hin. repeat (destruct Hin as [Hin|Hin]; [injection Hin as <- <-; repeat split; discriminate|]). contradiction. Qed.
  Lemma erk_name name m : In (name, m) erk_methods -> irk_id name = 0%Z /\ erk_id name = m /\ m <> 0%Z.
  Proof. unfold erk_methods. cbn [In]. intros Hin. repeat (destruct Hin as [Hin|Hin]; [injection Hin as <- <-; repeat split; discriminate|]). contradiction. Qed.
  Lemma unknown_name name : ~ In name (map fst irk_methods) -> ~ In name (map fst erk_methods) -> irk_id name = 0%Z /\ erk_id name = 0%Z.
  Proof.
    intros H2 H3. split; [exact (proj1 (unknown_lookup irk_methods [] (or_introl eq_refl)) name H2)|exact (proj1 (unknown_lookup erk_methods [] (or_intror eq_refl)) name H3)].
  Qed.

  (** the region file when the table could be computed *)
  Lemma region_file name emb m sc : (irk_id name = m /\ erk_id name = 0%Z \/ irk_id name = 0%Z /\ erk_id name = m) -> m <> 0%Z -> irk_get_coefficients m = Ok sc ->
    stability_region name emb [] = match rk_to_stab_region grid_X grid_Y sc emb with
      | Ok _ => (flat_map (fun y => map (fun x => Nums [x; y; match cell sc emb x y with Ok v => v | Err _ => sZ 0 end]) grid_X ++ [Blank]) grid_Y, Ok tt)
      | Err e => ([], Err e) end.
  Proof.
    intros Hid Hm Hg. unfold stability_region. 
    assert (HH : forall S, rk_to_stab_region grid_X grid_Y sc emb = Ok S ->
      foldM (fun (jy : nat * T) _ => bind (foldM (fun (ix : nat * T) _ => bind (lift (sget S (fst ix) (fst jy))) (fun v => put (Nums [snd ix; snd jy; v]))) (combine (seq 0 400) grid_X) tt) (fun _ => put Blank))
        (combine (seq 0 80) grid_Y) tt [] = (flat_map (fun y => map (fun x => Nums [x; y; match cell sc emb x y with Ok v => v | Err _ => sZ 0 end]) grid_X ++ [Blank]) grid_Y, Ok tt)).
    { intros S ES. assert (EX : length grid_X = 400%nat) by (apply linspace_length; lia). assert (EY : length grid_Y = 80%nat) by (apply linspace_length; lia).
      pose proof (grid_lines S (fun x y => match cell sc emb x y with Ok v => v | Err _ => sZ 0 end) grid_X grid_Y 400 (eq_sym EX) 0 []) as HGL. rewrite EY in HGL. apply HGL. intros i x j y Hx Hy. cbn [Nat.add].
      destruct (region_get sc emb _ _ S ES i x j y Hx Hy) as (v & E1 & E2). rewrite E2. exact E1. }
    assert (Hz : (m =? 0)%Z = false) by (apply Z.eqb_neq, Hm).
    destruct Hid as [[-> ->]|[-> ->]]; cbn [Z.eqb negb]; rewrite Hz; cbn [negb]; rewrite Hg; unfold bind at 1, lift at 1, bind at 1, lift at 1.
    - destruct (rk_to_stab_region grid_X grid_Y sc emb) as [SS|e]; [|reflexivity]. unfold bind at 1, ret at 1. apply HH. reflexivity.
    - unfold ret at 1. unfold bind at 1, bind at 1. destruct (rk_to_stab_region grid_X grid_Y sc emb) as [SS|e]; [|reflexivity]. apply HH. reflexivity.
  Qed.
  Lemma region_unknown name emb : irk_id name = 0%Z -> erk_id name = 0%Z -> stability_region name emb [] = ([], Err (EThrow ELogic)).
  Proof.
    intros H2 H3. unfold stability_region. rewrite H2, H3. cbn [Z.eqb negb]. unfold bind at 1, ret at 1, bind at 1, ret at 1.
    assert (EX : length grid_X = 400%nat) by (apply linspace_length; lia). assert (EY : length grid_Y = 80%nat) by (apply linspace_length; lia).
    generalize dependent (grid_X (T := T)). generalize dependent (grid_Y (T := T)). intros [|y Y] EY [|x X] EX; try discriminate. reflexivity.
  Qed.
End Generic.

(** the grid *)
Lemma linspace_R a b n : (1 <= n)%nat -> linspace (T := R) a b (S n) = map (fun i => a + INR i * ((b - a) / INR n)) (seq 0 (S n)).
Proof.
  intros Hn. unfold linspace. replace (S n - 1)%nat with n by lia. rewrite seq_S, map_app. cbn [map Nat.add]. f_equal.
  - unfold vtab. apply map_ext_in. intros i _. cbn. rewrite <- !INR_IZR_INZ. reflexivity.
  - f_equal. assert (INR n <> 0) by (apply not_0_INR; lia). field. assumption.
Qed.
Lemma grid_X_eq : grid_X (T := R) = region_x.
Proof. unfold grid_X, region_x. rewrite (linspace_R _ _ 399) by lia. apply map_ext. intros i. cbn [sZ]. rewrite (INR_IZR_INZ 399). cbn. lra. Qed.
Lemma grid_Y_eq : grid_Y (T := R) = region_y.
Proof. unfold grid_Y, region_y. rewrite (linspace_R _ _ 79) by lia. apply map_ext. intros i. cbn [sZ]. rewrite (INR_IZR_INZ 79). cbn. lra. Qed.
Lemma region_lines_eq val : region_lines val = flat_map (fun y => map (fun x => Nums [x; y; val x y]) grid_X ++ [Blank]) (grid_Y (T := R)).
Proof. rewrite grid_X_eq, grid_Y_eq. reflexivity. Qed.

Section Exact.
  Context {CA : CxAlg R} {HC : ExactCx CA} {HE : Env R}.

  Lemma cabs_mul v u : cabs (cmul v u) = cabs v * cabs u.
  Proof.
    unfold cabs, cmul, re, im. cbn [fst snd]. rewrite <- sqrt_mult; try (pose proof (Rle_0_sqr (fst v)); pose proof (Rle_0_sqr (snd v)); pose proof (Rle_0_sqr (fst u)); pose proof (Rle_0_sqr (snd u)); unfold Rsqr in *; lra).
    f_equal. ring.
  Qed.
  Lemma value_grows z (A : mat R) b v : stability_function z A b = Ok v -> grows_by (length b) (mentry A) (ventry b) z (cabs v).
  Proof.
    intros Hv c t h l <-. split; [intros u Hu; exact (stability_step_exists l h A b c v t u Hu Hv)|]. intros u u' k Hk.
    rewrite (stability_amplifies l h A b c v t u u' k Hv Hk). apply cabs_mul.
  Qed.
  (** why a value is missing *)
  Lemma value_error z (A : mat R) b e : stability_function z A b = Err e ->
    (e = EThrow ELogic /\ ~ (nrows A = length b /\ ncols A = length b)) \/
    (e = EThrow ERuntime /\ nrows A = length b /\ ncols A = length b /\ exists x, (exists j, (j < length b)%nat /\ x j <> (0, 0)) /\
       forall i, (i < length b)%nat -> x i = cmul z (csum (length b) (fun j => cmul (mentry A i j, 0) (x j)))).
  Proof.
    unfold stability_function. cbv zeta. unfold rbind. destruct (stab_matrix (length b) z A) as [M|e'] eqn:EM.
    - destruct (cx_inv_times M (repeat (slit 1 0) (length b))) as [x|] eqn:Ex; [discriminate|]. intros E. injection E as <-. right. destruct (stab_matrix_dims _ _ _ _ EM) as (D1 & D2 & D3 & D4).
      split; [reflexivity|]. split; [exact D1|]. split; [exact D2|].
      assert (HR : ~ cx_regular (length b) M). { intros HR. revert Ex. apply exact_cinv_total; [congruence|rewrite repeat_length; congruence|rewrite D3; exact HR]. }
      unfold cx_regular in HR. apply Classical_Pred_Type.not_all_ex_not in HR. destruct HR as (x & HR). exists x.
      apply Classical_Prop.imply_to_and in HR. destruct HR as [HR1 HR2]. split.
      + apply Classical_Pred_Type.not_all_ex_not in HR2. destruct HR2 as (j & HR2). apply Classical_Prop.imply_to_and in HR2. exists j. exact HR2.
      + intros i Hi. specialize (HR1 i Hi). rewrite (stab_row _ _ _ _ i x EM Hi) in HR1. set (S := csum _ _) in * . clearbody S.
        apply cx_eq; [apply (f_equal re) in HR1|apply (f_equal im) in HR1]; unfold cadd, cmul, re, im in *; cbn [fst snd] in *; lra.
    - intros E. injection E as <-. left. unfold stab_matrix in EM. destruct ((nrows A =? length b)%nat && (ncols A =? length b)%nat) eqn:Ed; [discriminate|]. injection EM as <-. split; [reflexivity|].
      intros [D1 D2]. rewrite D1, D2, Nat.eqb_refl in Ed. discriminate.
  Qed.
  Lemma value_bad_dims z (A : mat R) b : ~ (nrows A = length b /\ ncols A = length b) -> stability_function z A b = Err (EThrow ELogic).
  Proof.
    intros Hd. unfold stability_function. cbv zeta. unfold rbind, stab_matrix. destruct ((nrows A =? length b)%nat && (ncols A =? length b)%nat) eqn:Ed; [|reflexivity].
    apply andb_prop in Ed. rewrite !Nat.eqb_eq in Ed. contradiction.
  Qed.

  (** no coefficients: 1 everywhere *)
  Lemma value_empty z : stability_function z mat_empty [] = Ok (1, 0).
  Proof.
    destruct (stability_function_total z mat_empty [] (mtab 0 0 (fun _ _ => (0, 0)))) as (v & Hv); [reflexivity|intros x _ j Hj; cbn in Hj; lia|].
    destruct (stability_function_inv _ _ _ _ Hv) as (M & x & _ & _ & _ & ->). rewrite Hv. f_equal. unfold csum. cbn [length Rsum]. cring.
  Qed.

  (** explicit methods: the value is that of the stability polynomial *)
  Lemma value_explicit x (A : mat R) b : nrows A = length b -> ncols A = length b -> (forall i j, (i <= j)%nat -> (j < length b)%nat -> mentry A i j = 0) ->
    stability_function (x, 0) A b = Ok (stability (length b) (mentry A) (ventry b) x, 0).
  Proof.
    intros D1 D2 Hl. destruct (stab_matrix (length b) (x, 0) A) as [M|e] eqn:EM.
    2:{ exfalso. unfold stab_matrix in EM. rewrite D1, D2, Nat.eqb_refl in EM. discriminate. }
    destruct (stability_function_total _ _ _ _ EM) as (v & Hv).
    { intros u Hu. assert (H : forall j, (j < length b)%nat -> forall i, (i <= j)%nat -> u i = (0, 0)); [|intros j Hj; apply (H j Hj j (le_n j))].
      induction j as [|j IH]; intros Hj i Hi.
      - assert (i = 0%nat) as -> by lia. pose proof (Hu 0%nat Hj) as E. rewrite (stab_row _ _ _ _ _ u EM Hj) in E.
        rewrite (csum_ext _ _ (fun _ => (0, 0))) in E. 2:{ intros q Hq. rewrite (Hl 0%nat q) by lia. cring. }
        unfold csum in E. rewrite !Rsum_0 in E by reflexivity. rewrite <- E. cring.
      - destruct (Nat.eq_dec i (S j)) as [->|]; [|apply IH; lia]. pose proof (Hu (S j) Hj) as E. rewrite (stab_row _ _ _ _ _ u EM Hj) in E.
        rewrite (csum_ext _ _ (fun _ => (0, 0))) in E.
        2:{ intros q Hq. destruct (Nat.lt_ge_cases q (S j)) as [Hq2|Hq2]; [rewrite (IH ltac:(lia) q) by lia|rewrite (Hl (S j) q) by lia]; cring. }
        unfold csum in E. rewrite !Rsum_0 in E by reflexivity. rewrite <- E. cring. }
    rewrite Hv. f_equal. assert (Ez : cmul (1, 0) (x, 0) = (x, 0)) by cring. rewrite <- Ez in Hv.
    destruct (stability_step_exists (x, 0) 1 A b (fun _ => 0) v 0 [1; 0] eq_refl Hv) as (y' & k & Hk). pose proof (stability_amplifies _ _ _ _ _ _ _ _ _ _ Hv Hk) as Hy.
    assert (Hlin : forall t y q, length y = 2%nat -> (q < 2)%nat -> ventry (linear_rhs 2 (times_matrix (x, 0)) t y) q = x * ventry y q).
    { intros t y q _ Hq. unfold linear_rhs. rewrite ventry_vt by exact Hq. destruct q as [|[|q]]; [| |lia]; cbn [Rsum times_matrix]; unfold re, im; cbn [fst snd]; ring. }
    pose proof (rk_linear _ _ _ _ _ _ _ _ _ _ _ x Hk Hl Hlin) as HL. rewrite Rmult_1_r in HL.
    assert (Ev : as_cx y' = v) by (rewrite Hy; unfold as_cx, ventry; cbn [nth]; cring).
    rewrite <- Ev. unfold as_cx. rewrite (HL 0%nat), (HL 1%nat) by lia. change (ventry [1; 0] 0) with 1. change (ventry [1; 0] 1) with 0. f_equal; ring.
  Qed.

  (** ** The region files *)
  Lemma region_implicit name m sc emb w : In (name, m) irk_methods -> irk_get_coefficients m = Ok sc -> stability_region name emb [] = (w, Ok tt) ->
    exists val, w = region_lines val /\ forall x y, In x region_x -> In y region_y -> exists v,
      stability_function (x, y) (sc_A sc) (if emb then sc_b2 sc else sc_b sc) = Ok v /\ val x y = cabs v.
  Proof.
    intros Hn Hg Hr. destruct (irk_name name m Hn) as (N1 & N2 & N3). rewrite (region_file name emb m sc (or_introl (conj N1 N2)) N3 Hg) in Hr.
    destruct (rk_to_stab_region grid_X grid_Y sc emb) as [SS|e] eqn:ES; apply pair_inj in Hr; destruct Hr as [Hr1 Hr2]; [|discriminate Hr2]. clear Hr2. symmetry in Hr1.
    exists (fun x y => match cell sc emb x y with Ok v => v | Err _ => sZ 0 end). split; [rewrite region_lines_eq; exact Hr1|]. clear Hr1. intros x y Hx Hy. rewrite <- grid_X_eq in Hx. rewrite <- grid_Y_eq in Hy.
    apply In_nth_error in Hx, Hy. destruct Hx as (i & Hx), Hy as (j & Hy). destruct (region_get sc emb _ _ SS ES i x j y Hx Hy) as (v & _ & E). rewrite E. unfold cell in E.
    destruct (stability_function (x, y) (sc_A sc) (if emb then sc_b2 sc else sc_b sc)) as [v'|]; [|discriminate]. cbn [rbind] in E. injection E as <-. exists v'. split; [reflexivity|apply exact_cabs].
  Qed.
  Lemma region_error name m sc emb w e : In (name, m) irk_methods -> irk_get_coefficients m = Ok sc -> stability_region name emb [] = (w, Err e) ->
    w = [] /\ exists x y, In x region_x /\ In y region_y /\ stability_function (x, y) (sc_A sc) (if emb then sc_b2 sc else sc_b sc) = Err e.
  Proof.
    intros Hn Hg Hr. destruct (irk_name name m Hn) as (N1 & N2 & N3). rewrite (region_file name emb m sc (or_introl (conj N1 N2)) N3 Hg) in Hr.
    destruct (rk_to_stab_region grid_X grid_Y sc emb) as [SS|e'] eqn:ES; apply pair_inj in Hr; destruct Hr as [Hr1 Hr2]; [discriminate Hr2|]. injection Hr2 as <-. split; [symmetry; exact Hr1|]. clear Hr1.
    apply mapR_err in ES. destruct ES as (x & Hx & ES). apply mapR_err in ES. destruct ES as (y & Hy & ES). exists x, y. split; [rewrite <- grid_X_eq; exact Hx|]. split; [rewrite <- grid_Y_eq; exact Hy|].
    destruct (stability_function (x, y) (sc_A sc) (if emb then sc_b2 sc else sc_b sc)) as [v'|]; [discriminate|]. cbn [rbind] in ES. injection ES as ->. reflexivity.
  Qed.
  Lemma region_bad_dims name m sc (emb : bool) : In (name, m) irk_methods -> irk_get_coefficients m = Ok sc ->
    ~ (nrows (sc_A sc) = length (if emb then sc_b2 sc else sc_b sc) /\ ncols (sc_A sc) = length (if emb then sc_b2 sc else sc_b sc)) -> stability_region (T := R) name emb [] = ([], Err (EThrow ELogic)).
  Proof.
    intros Hn Hg Hd. destruct (irk_name name m Hn) as (N1 & N2 & N3). rewrite (region_file name emb m sc (or_introl (conj N1 N2)) N3 Hg).
    assert (EX : length grid_X = 400%nat) by (apply linspace_length; lia). assert (EY : length grid_Y = 80%nat) by (apply linspace_length; lia).
    unfold rk_to_stab_region. generalize dependent (grid_X (T := R)). generalize dependent (grid_Y (T := R)). intros [|y Y] EY [|x X] EX; try discriminate.
    rewrite (mapR_first _ x X (EThrow ELogic)); [reflexivity|]. apply mapR_first. rewrite value_bad_dims by exact Hd. reflexivity.
  Qed.
  Lemma unsupported m : ~ In m implicit_methods -> irk_get_coefficients (T := R) m = Ok unsupported_coeffs.
  Proof.
    intros Hm. unfold irk_get_coefficients, irk_table.
    repeat match goal with |- context [if (m =? ?c)%Z then _ else _] => destruct (Z.eqb_spec m c) as [E|_]; [exfalso; apply Hm; rewrite E; unfold implicit_methods; cbn [In]; tauto|] end.
    reflexivity.
  Qed.
  Lemma region_constant name m emb : In (name, m) erk_methods \/ (In (name, m) irk_methods /\ ~ In m implicit_methods) -> stability_region name emb [] = (region_lines (fun _ _ => 1), Ok tt).
  Proof.
    intros Hn. assert (Hid : (irk_id name = m /\ erk_id name = 0%Z \/ irk_id name = 0%Z /\ erk_id name = m) /\ m <> 0%Z /\ ~ In m implicit_methods).
    { destruct Hn as [Hn|[Hn Hm]]; [destruct (erk_name name m Hn) as (N1 & N2 & N3)|destruct (irk_name name m Hn) as (N1 & N2 & N3)]; split; auto; split; auto.
      clear - Hn. unfold erk_methods in Hn. cbn [In] in Hn. unfold implicit_methods. repeat (destruct Hn as [Hn|Hn]; [injection Hn as <- <-; cbn; intros HH; repeat (destruct HH as [HH|HH]; [discriminate HH|]); exact HH|]). contradiction. }
    destruct Hid as (Hid & Hm & Hi). rewrite (region_file name emb m _ Hid Hm (unsupported m Hi)).
    assert (Ec : forall x y, cell (unsupported_coeffs (T := R)) emb x y = Ok 1).
    { intros x y. unfold cell. replace (if emb then sc_b2 unsupported_coeffs else sc_b unsupported_coeffs) with (@nil R) by (destruct emb; reflexivity).
      rewrite (value_empty (x, y) : stability_function (x, y) (sc_A unsupported_coeffs) [] = _). cbn [rbind]. rewrite exact_cabs. f_equal. unfold cabs, re, im. cbn [fst snd]. rewrite Rmult_1_r, Rmult_0_r, Rplus_0_r. apply sqrt_1. }
    assert (ES : exists SS, rk_to_stab_region (T := R) grid_X grid_Y unsupported_coeffs emb = Ok SS).
    { eexists. apply mapR_all. intros x _. apply (mapR_all _ (fun _ => 1)). intros y _. apply Ec. }
    destruct ES as (SS & ->). f_equal. rewrite region_lines_eq. induction grid_Y as [|y Y IH]; [reflexivity|]. cbn [flat_map]. rewrite IH. f_equal. f_equal. apply map_ext. intros x. rewrite Ec. reflexivity.
  Qed.

  (** ** The limit file *)
  Lemma limit_ok sc (g g2 : R -> R) : (forall x, stability_function (x, 0) (sc_A sc) (sc_b sc) = Ok (g x, 0)) -> (forall x, stability_function (x, 0) (sc_A sc) (sc_b2 sc) = Ok (g2 x, 0)) ->
    forall w, limit_lines sc w = (w ++ map (fun x => Nums [x; Rabs (g x); Rabs (g2 x)]) limit_points, Ok tt).
  Proof.
    intros H1 H2. unfold limit_lines. change (slit 0 0) with 0. induction limit_points as [|x l IH]; intros w; [cbn; rewrite app_nil_r; reflexivity|].
    cbn [foldM map]. unfold bind at 1, bind at 1, bind at 1, lift at 1. rewrite H1. unfold lift at 1. rewrite H2. unfold put at 1. rewrite IH, <- app_assoc. cbn [app].
    assert (Es : forall a, cx_abs (a, 0) = Rabs a). { intros a. rewrite exact_cabs. unfold cabs, re, im. cbn [fst snd]. rewrite Rmult_0_r, Rplus_0_r. apply sqrt_Rsqr_abs. }
    rewrite !Es. reflexivity.
  Qed.
  Lemma explicit_dims m sc : In m explicit_methods -> erk_get_coefficients m = Ok sc -> nrows (sc_A sc) = length (sc_b sc) /\ ncols (sc_A sc) = length (sc_b sc) /\
    (forall i j, (i <= j)%nat -> (j < length (sc_b sc))%nat -> mentry (sc_A sc) i j = 0).
  Proof.
    intros Hm Hg. destruct (TablesGeneric.erk_get_ok (T := R) m) as (sc' & Hg' & _ & Hd). rewrite Hg in Hg'. injection Hg' as <-. destruct (dims_of sc _ Hd) as (L1 & L2 & L3 & L4 & L5).
    unfold ncols. split; [congruence|]. split; [congruence|]. intros i j Hij Hj. apply (proj2 (erk_rows m sc Hm Hg) i); lia.
  Qed.
  Lemma explicit_b2 m sc : In m explicit_embedded -> erk_get_coefficients (T := R) m = Ok sc -> length (sc_b2 sc) = length (sc_b sc).
  Proof.
    intros Hm Hg. destruct (TablesGeneric.erk_get_ok (T := R) m) as (sc' & Hg' & Ht & _). rewrite Hg in Hg'. injection Hg' as <-.
    simpl in Hm. repeat (destruct Hm as [<-|Hm]; [injection Ht as <-; reflexivity|]). contradiction.
  Qed.
  Lemma limit_explicit name m sc : In (name, m) erk_methods -> erk_get_coefficients m = Ok sc ->
    stability_limit name [] = if existsb (Z.eqb m) explicit_embedded
      then (Heading :: map (fun x => Nums [x; Rabs (stability (length (sc_b sc)) (mentry (sc_A sc)) (ventry (sc_b sc)) x);
                                            Rabs (stability (length (sc_b sc)) (mentry (sc_A sc)) (ventry (sc_b2 sc)) x)]) limit_points, Ok tt)
      else ([Heading], Err (EThrow ELogic)).
  Proof.
    intros Hn Hg. destruct (erk_name name m Hn) as (N1 & N2 & N3). assert (Hm : In m explicit_methods).
    { clear - Hn. unfold erk_methods in Hn. cbn [In] in Hn. repeat (destruct Hn as [Hn|Hn]; [injection Hn as <- <-; unfold explicit_methods; cbn; tauto|]). contradiction. }
    unfold stability_limit. unfold bind at 1, put at 1. cbn [app]. rewrite N1, N2. cbn [Z.eqb negb]. rewrite (proj2 (Z.eqb_neq m 0) N3). cbn [negb]. unfold bind at 1, lift at 1. rewrite Hg.
    destruct (explicit_dims m sc Hm Hg) as (D1 & D2 & Dl). destruct (existsb (Z.eqb m) explicit_embedded) eqn:Ee.
    - apply existsb_exists in Ee. destruct Ee as (m' & Hm' & E). apply Z.eqb_eq in E. subst m'. pose proof (explicit_b2 m sc Hm' Hg) as Lb.
      rewrite (limit_ok sc (stability (length (sc_b sc)) (mentry (sc_A sc)) (ventry (sc_b sc))) (stability (length (sc_b sc)) (mentry (sc_A sc)) (ventry (sc_b2 sc)))); [reflexivity| |].
      + intros x. apply value_explicit; assumption.
      + intros x. rewrite <- Lb. apply value_explicit; rewrite ?Lb; assumption.
    - assert (Hb2 : sc_b2 sc = [] /\ length (sc_b sc) <> 0%nat).
      { assert (Hme : m = EXPLICIT_EULER \/ m = RUNGE_KUTTA_4). { clear - Hm Ee. unfold explicit_methods in Hm. cbn [In] in Hm. repeat (destruct Hm as [<-|Hm]; [try tauto; try discriminate Ee|]). contradiction. }
        split; [apply (sc_b2_empty m sc Hg Hme)|]. destruct (sc_stages_fsal m sc Hm Hg) as [Hst _]. destruct Hme as [->| ->]; clear - Hst; unfold explicit_stage_counts in Hst; cbn [In] in Hst; intros E; rewrite E in Hst;
        repeat (destruct Hst as [Hst|Hst]; [discriminate Hst|]); exact Hst. }
      destruct Hb2 as [Hb2 Hne]. unfold limit_lines, limit_points. cbn [foldM]. unfold bind at 1, bind at 1, lift at 1. change (slit 0 0) with 0. rewrite value_explicit by assumption.
      unfold bind at 1, lift at 1. rewrite value_bad_dims by (rewrite Hb2, D1; cbn [length]; tauto). reflexivity.
  Qed.

  (** ** The program *)
  Lemma main_explicit name m sc : In (name, m) erk_methods -> erk_get_coefficients m = Ok sc ->
    stab_main (Some name) = if existsb (Z.eqb m) explicit_embedded
      then ((region_lines (fun _ _ => 1), region_lines (fun _ _ => 1),
             Heading :: map (fun x => Nums [x; Rabs (stability (length (sc_b sc)) (mentry (sc_A sc)) (ventry (sc_b sc)) x);
                                               Rabs (stability (length (sc_b sc)) (mentry (sc_A sc)) (ventry (sc_b2 sc)) x)]) limit_points), Ok 0%Z)
      else ((region_lines (fun _ _ => 1), region_lines (fun _ _ => 1), [Heading]), Err (EThrow ELogic)).
  Proof.
    intros Hn Hg. destruct (erk_name name m Hn) as (N1 & N2 & N3). unfold stab_main. rewrite N1. cbn [Z.eqb negb].
    rewrite !(region_constant name m) by (left; exact Hn). rewrite (limit_explicit name m sc Hn Hg). destruct (existsb (Z.eqb m) explicit_embedded); reflexivity.
  Qed.
  Lemma main_unknown name : ~ In name (map fst irk_methods) -> ~ In name (map fst erk_methods) -> stab_main (T := R) (Some name) = (([], [], []), Err (EThrow ELogic)).
  Proof. intros H1 H2. destruct (unknown_name name H1 H2) as (N1 & N2). unfold stab_main. rewrite N1. cbn [Z.eqb negb]. rewrite (region_unknown name false N1 N2). reflexivity. Qed.
End Exact.

(** ** Backward Euler: the first file is complete, then the missing embedded weights end the program *)
Section Euler.
  Context {CA : CxAlg R} {HC : ExactCx CA} {HE : Env R}.
  Lemma grid_Y_nonzero y : In y (grid_Y (T := R)) -> y <> 0.
  Proof.
    unfold grid_Y, linspace. intros Hy. apply in_app_or in Hy. destruct Hy as [Hy|[<-|[]]]; [|cbn; lra]. unfold vtab in Hy. apply in_map_iff in Hy. destruct Hy as (i & <- & Hi). apply in_seq in Hi. destruct Hi as [_ Hi].
    change (- 20 + IZR (Z.of_nat i) * ((20 - - 20) / 79) <> 0). intros E. assert (E2 : IZR (40 * Z.of_nat i) = IZR 1580) by (rewrite mult_IZR; lra). apply eq_IZR in E2. lia.
  Qed.
  Lemma euler_value z : im z <> 0 -> exists v, stability_function z (of_rows 0 [[1]]) [1] = Ok v /\ cabs v = / sqrt ((1 - re z) * (1 - re z) + im z * im z).
  Proof.
    intros Hz. set (D := (1 - re z) * (1 - re z) + im z * im z).
    assert (HD : 0 < D). { unfold D. pose proof (Rle_0_sqr (1 - re z)). pose proof (Rsqr_pos_lt (im z) Hz). unfold Rsqr in * . lra. }
    destruct (stab_matrix 1 z (of_rows 0 [[1]])) as [M|e] eqn:EM; [|discriminate EM].
    assert (Hrow : forall x : nat -> cx R, csum 1 (fun j => cmul (centry M 0 j) (x j)) = cmul (1 - re z, - im z) (x 0%nat)).
    { intros x. rewrite (stab_row _ _ _ _ _ x EM (le_n 1)). unfold csum. cbn [Rsum]. change (mentry (of_rows 0 [[1]]) 0 0) with 1. cring. }
    destruct (stability_function_total z (of_rows 0 [[1]]) [1] M EM) as (v & Hv).
    { intros x Hx [|j] Hj; [|cbn in Hj; lia]. pose proof (Hx 0%nat Hj) as E. change (length [1]) with 1%nat in E. rewrite Hrow in E.
      assert (E1 : cmul (1 - re z, im z) (cmul (1 - re z, - im z) (x 0%nat)) = (0, 0)) by (rewrite E; cring).
      assert (E2 : cmul (1 - re z, im z) (cmul (1 - re z, - im z) (x 0%nat)) = (D * re (x 0%nat), D * im (x 0%nat))) by (unfold D; cring). rewrite E2 in E1.
      apply cx_eq; [apply (f_equal fst) in E1|apply (f_equal snd) in E1]; cbn [fst snd] in E1; apply Rmult_integral in E1; destruct E1 as [E1|E1]; [lra|exact E1|lra|exact E1]. }
    exists v. split; [exact Hv|]. destruct (stability_function_inv _ _ _ _ Hv) as (M' & x & EM' & _ & HX & ->). change (length [1]) with 1%nat in * . rewrite EM in EM'. injection EM' as <-.
    pose proof (HX 0%nat (le_n 1)) as E. rewrite Hrow in E.
    assert (Ex : cadd (1, 0) (cmul z (csum 1 (fun i => cmul (ventry [1] i, 0) (x i)))) = x 0%nat).
    { unfold csum. cbn [Rsum]. change (ventry [1] 0) with 1. apply cx_eq; [apply (f_equal re) in E|apply (f_equal im) in E]; unfold cadd, cmul, re, im in *; cbn [fst snd] in *; lra. }
    rewrite Ex. apply (f_equal cabs) in E. rewrite cabs_mul in E.
    replace (cabs (1, 0)) with 1 in E by (unfold cabs, re, im; cbn [fst snd]; rewrite Rmult_1_r, Rmult_0_r, Rplus_0_r; symmetry; apply sqrt_1).
    replace (cabs (1 - re z, - im z)) with (sqrt D) in E by (unfold cabs, D, re, im; cbn [fst snd]; f_equal; ring).
    pose proof (sqrt_lt_R0 D HD). apply Rmult_eq_reg_l with (sqrt D); [|lra]. rewrite E. field. lra.
  Qed.
  Lemma euler_region : stability_region "IMPLICIT_EULER"%string false [] = (region_lines (fun x y => / sqrt ((1 - x) * (1 - x) + y * y)), Ok tt).
  Proof.
    assert (Hn : In ("IMPLICIT_EULER"%string, IMPLICIT_EULER) irk_methods) by (left; reflexivity). destruct (irk_name _ _ Hn) as (N1 & N2 & N3).
    destruct (TablesGeneric.irk_get_ok (T := R) IMPLICIT_EULER) as (sc & Hg & Ht & _). injection Ht as Hsc. change (Rlit 0 0) with 0 in Hsc.
    assert (HV : forall x y, In y (grid_Y (T := R)) -> cell sc false x y = Ok (/ sqrt ((1 - x) * (1 - x) + y * y))).
    { intros x y Hy. unfold cell. rewrite <- Hsc. cbn [sc_A sc_b]. destruct (euler_value (x, y) (grid_Y_nonzero y Hy)) as (v & Hv & Ev).
      change (of_rows (sZ 0) [[slit 1 0]]) with (of_rows 0 [[1]]). change [slit (Scalar := RScalar) 1 0] with [1]. rewrite Hv. cbn [rbind]. rewrite exact_cabs, Ev. reflexivity. }
    rewrite (region_file _ false _ sc (or_introl (conj N1 N2)) N3 Hg).
    assert (ES : exists SS, rk_to_stab_region (T := R) grid_X grid_Y sc false = Ok SS).
    { eexists. apply (mapR_all _ (fun x => map (fun y => / sqrt ((1 - x) * (1 - x) + y * y)) grid_Y)). intros x _. apply mapR_all. intros y Hy. apply (HV x y Hy). }
    destruct ES as (SS & ->). replace (flat_map _ grid_Y) with (region_lines (fun x y => / sqrt ((1 - x) * (1 - x) + y * y))); [reflexivity|].
    rewrite region_lines_eq. revert HV. generalize (grid_Y (T := R)). induction l as [|y Y IH]; intros HV; [reflexivity|]. cbn [flat_map]. rewrite IH by (intros; apply HV; right; assumption). f_equal. f_equal.
    apply map_ext. intros x. rewrite (HV x y (or_introl eq_refl)). reflexivity.
  Qed.
  Lemma main_implicit_euler : stab_main (Some "IMPLICIT_EULER"%string) = ((region_lines (fun x y => / sqrt ((1 - x) * (1 - x) + y * y)), [], []), Err (EThrow ELogic)).
  Proof.
    assert (Hn : In ("IMPLICIT_EULER"%string, IMPLICIT_EULER) irk_methods) by (left; reflexivity). destruct (irk_name _ _ Hn) as (N1 & N2 & N3).
    destruct (TablesGeneric.irk_get_ok (T := R) IMPLICIT_EULER) as (sc & Hg & Ht & _). injection Ht as Hsc. change (Rlit 0 0) with 0 in Hsc.
    unfold stab_main. rewrite N1. cbn [Z.eqb negb]. change (IMPLICIT_EULER =? 0)%Z with false. cbn [negb]. rewrite Hg. cbn [rbind].
    rewrite (region_bad_dims _ IMPLICIT_EULER sc true Hn Hg) by (rewrite <- Hsc; cbn; lia).
    rewrite euler_region. reflexivity.
  Qed.
End Euler.

(** ** The statements of the properties *)
Section Final.
  Context {CA : CxAlg R} {HC : ExactCx CA}.
  Lemma value_factor z A b v : stability_function z A b = Ok v -> forall c t h l, cmul (h, 0) l = z ->
    (forall u, length u = 2%nat -> exists u' k, rk_step 2 (length b) (mentry A) (ventry b) c (linear_rhs 2 (times_matrix l)) t h u u' k) /\
    (forall u u' k, rk_step 2 (length b) (mentry A) (ventry b) c (linear_rhs 2 (times_matrix l)) t h u u' k -> as_cx u' = cmul v (as_cx u)).
  Proof.
    intros Hv c t h l <-. split; [intros u Hu; exact (stability_step_exists l h A b c v t u Hu Hv)|]. intros u u' k Hk. exact (stability_amplifies l h A b c v t u u' k Hv Hk).
  Qed.
  Context {HE : Env R}.
  Lemma stable_values m b sc z : In (m, b) last_weights -> irk_get_coefficients m = Ok sc -> re z <= 0 ->
    exists v, stability_function z (sc_A sc) (sc_b sc) = Ok v /\ cabs v <= 1 /\ (1 + 2 * b * - re z) * (cabs v * cabs v) <= 1.
  Proof.
    intros Hm Hg Hz. destruct (stable_decay m b sc z Hm Hg Hz) as (v & Hv & Hd). exists v. split; [exact Hv|]. split; [|exact Hd].
    assert (Hb : 0 <= b) by (clear - Hm; unfold last_weights in Hm; cbn [In] in Hm; destruct Hm as [H|[H|[H|[H|[H|[]]]]]]; injection H as _ <-; lra).
    assert (0 <= cabs v) by (apply sqrt_pos). assert (0 <= cabs v * cabs v) by (apply Rmult_le_pos; assumption). assert (0 <= 2 * b * - re z) by (apply Rmult_le_pos; lra).
    destruct (Rle_lt_dec (cabs v) 1) as [|Hg1]; [assumption|]. exfalso. assert (1 < cabs v * cabs v) by nra. nra.
  Qed.
  Lemma region_grows name m sc (embedded : bool) w : In (name, m) irk_methods -> irk_get_coefficients m = Ok sc -> stability_region name embedded [] = (w, Ok tt) ->
    let b := if embedded then sc_b2 sc else sc_b sc in
    exists val, w = region_lines val /\ forall x y, In x region_x -> In y region_y -> grows_by (length b) (mentry (sc_A sc)) (ventry b) (x, y) (val x y).
  Proof.
    intros Hn Hg Hr b. destruct (region_implicit name m sc embedded w Hn Hg Hr) as (val & E & Hv). exists val. split; [exact E|]. intros x y Hx Hy.
    destruct (Hv x y Hx Hy) as (v & V1 & ->). apply value_grows. exact V1.
  Qed.
  Lemma main_cases :
    stab_main None = (([], [], []), Ok (-1)%Z) /\
    (forall name, ~ In name (map fst irk_methods) -> ~ In name (map fst erk_methods) -> stab_main (Some name) = (([], [], []), Err (EThrow ELogic))) /\
    (forall name m sc, In (name, m) erk_methods -> erk_get_coefficients m = Ok sc -> In m explicit_embedded ->
       stab_main (Some name) = ((region_lines (fun _ _ => 1), region_lines (fun _ _ => 1),
         Heading :: map (fun x => Nums [x; Rabs (stability (length (sc_b sc)) (mentry (sc_A sc)) (ventry (sc_b sc)) x);
                                           Rabs (stability (length (sc_b sc)) (mentry (sc_A sc)) (ventry (sc_b2 sc)) x)]) limit_points), Ok 0%Z)) /\
    (forall name m, In (name, m) erk_methods -> ~ In m explicit_embedded ->
       stab_main (Some name) = ((region_lines (fun _ _ => 1), region_lines (fun _ _ => 1), [Heading]), Err (EThrow ELogic))) /\
    stab_main (Some "IMPLICIT_EULER"%string) = ((region_lines (fun x y => / sqrt ((1 - x) * (1 - x) + y * y)), [], []), Err (EThrow ELogic)).
  Proof.
    split; [reflexivity|]. split; [exact main_unknown|]. split; [|split; [|exact main_implicit_euler]].
    - intros name m sc Hn Hg Hm. rewrite (main_explicit name m sc Hn Hg). replace (existsb (Z.eqb m) explicit_embedded) with true; [reflexivity|]. symmetry. apply existsb_exists. exists m. split; [exact Hm|apply Z.eqb_refl].
    - intros name m Hn Hm. destruct (TablesGeneric.erk_get_ok (T := R) m) as (sc & Hg & _). rewrite (main_explicit name m sc Hn Hg). replace (existsb (Z.eqb m) explicit_embedded) with false; [reflexivity|].
      symmetry. apply Bool.not_true_iff_false. intros E. apply existsb_exists in E. destruct E as (q & Hq & Eq). apply Z.eqb_eq in Eq. subst q. exact (Hm Hq).
  Qed.
End Final.
