(** Lemmas about the method-name registries. *)
From Coq Require Import String.
From Verif Require Import Model.Base Model.Enums.
Local Open Scope Z_scope.

Section MapLemmas.
  Context {K V : Type} (cmp : K -> K -> comparison) (cmp_eq : forall a b, cmp a b = Eq <-> a = b).
  Implicit Type m : list (K * V).

  Lemma cmp_refl a : cmp a a = Eq.
  Proof. apply cmp_eq; reflexivity. Qed.

  Lemma find_None m k : map_find cmp m k = None <-> ~ In k (map fst m).
  Proof.
    induction m as [|[k' v'] m IH]; simpl; [tauto|].
    destruct (cmp k k') eqn:E.
    - apply cmp_eq in E; subst. split; [discriminate|tauto].
    - rewrite IH. split; [|tauto]. intros H [H1|H1]; [subst; rewrite cmp_refl in E; discriminate|tauto].
    - rewrite IH. split; [|tauto]. intros H [H1|H1]; [subst; rewrite cmp_refl in E; discriminate|tauto].
  Qed.

  Lemma find_insert_same m k v : map_find cmp m k = None -> map_find cmp (map_insert cmp m k v) k = Some v.
  Proof.
    induction m as [|[k' v'] m IH]; simpl; intros H.
    - rewrite cmp_refl; reflexivity.
    - destruct (cmp k k') eqn:E; simpl.
      + discriminate.
      + rewrite cmp_refl; reflexivity.
      + rewrite E; auto.
  Qed.

  Lemma find_insert_other m k v k2 :
    k2 <> k -> map_find cmp (map_insert cmp m k v) k2 = map_find cmp m k2.
  Proof.
    intros Hn. induction m as [|[k' v'] m IH]; simpl.
    - destruct (cmp k2 k) eqn:E; auto. apply cmp_eq in E; congruence.
    - destruct (cmp k k') eqn:E; simpl; auto.
      + destruct (cmp k2 k) eqn:E2; auto. apply cmp_eq in E2; congruence.
      + destruct (cmp k2 k'); auto.
  Qed.

  Lemma keys_insert m k v x :
    In x (map fst (map_insert cmp m k v)) <-> x = k \/ In x (map fst m).
  Proof.
    induction m as [|[k' v'] m IH]; simpl; [intuition|].
    destruct (cmp k k') eqn:E; simpl.
    - apply cmp_eq in E; subst. intuition.
    - intuition.
    - rewrite IH. intuition.
  Qed.

  Lemma nodup_insert m k v :
    map_find cmp m k = None -> NoDup (map fst m) -> NoDup (map fst (map_insert cmp m k v)).
  Proof.
    induction m as [|[k' v'] m IH]; simpl; intros Hf Hn.
    - constructor; [tauto|constructor].
    - destruct (cmp k k') eqn:E; simpl.
      + discriminate.
      + constructor; [|exact Hn]. intros [H|H]; [subst; rewrite cmp_refl in E; discriminate|].
        apply find_None in Hf; tauto.
      + inversion_clear Hn. constructor; [|auto].
        rewrite keys_insert. intros [H1|H1]; [subst; rewrite cmp_refl in E; discriminate|tauto].
  Qed.

  (** Inserting a default never changes the value of a present key. *)
  Lemma find_index_some d m k k2 v :
    map_find cmp m k2 = Some v -> map_find cmp (fst (map_index cmp d m k)) k2 = Some v.
  Proof.
    intros H. unfold map_index. destruct (map_find cmp m k) eqn:E; simpl; [exact H|].
    rewrite find_insert_other; [exact H|]. intros ->. congruence.
  Qed.

  Lemma keys_index d m k x : In x (map fst (fst (map_index cmp d m k))) <-> x = k \/ In x (map fst m).
  Proof.
    unfold map_index. destruct (map_find cmp m k) eqn:E; simpl; [|apply keys_insert].
    split; [tauto|]. intros [->|H]; [|exact H].
    clear - E cmp_eq. induction m as [|[k' v'] m IH]; simpl in *; [discriminate|].
    destruct (cmp k k') eqn:E2; auto. apply cmp_eq in E2; auto.
  Qed.

  Lemma nodup_index d m k : NoDup (map fst m) -> NoDup (map fst (fst (map_index cmp d m k))).
  Proof.
    intros H. unfold map_index. destruct (map_find cmp m k) eqn:E; simpl; [exact H|].
    apply nodup_insert; assumption.
  Qed.

  Lemma index_value d m k v : map_find cmp m k = Some v -> map_index cmp d m k = (m, v).
  Proof. intros H. unfold map_index. rewrite H. reflexivity. Qed.
End MapLemmas.

Lemma str_cmp_eq a b : String.compare a b = Eq <-> a = b.
Proof.
  split; [apply String.compare_eq_iff|]. intros ->. induction b as [|c b IH]; simpl; [reflexivity|].
  unfold Ascii.compare. rewrite N.compare_refl. exact IH.
Qed.
Lemma z_cmp_eq a b : Z.compare a b = Eq <-> a = b.
Proof. apply Z.compare_eq_iff. Qed.

(** What holds of a registry after any history. *)
Definition reg_ok (methods : list (string * Z)) (r : registry) : Prop :=
  (forall s m, In (s, m) methods ->
     map_find Z.compare (m2s r) m = Some s /\ map_find String.compare (s2m r) s = Some m) /\
  NoDup (map fst (s2m r)).

Lemma reg_ok_lookup methods r l : reg_ok methods r -> reg_ok methods (do_lookup r l).
Proof.
  intros [H1 H2]. destruct l as [s0|m0]; unfold do_lookup, name_to_method, method_to_name.
  - destruct (map_index String.compare 0 (s2m r) s0) as [m' v] eqn:E. simpl.
    assert (Em : m' = fst (map_index String.compare 0 (s2m r) s0)) by (rewrite E; reflexivity).
    split; simpl.
    + intros s m Hin. destruct (H1 s m Hin) as [Ha Hb]. split; [exact Ha|].
      rewrite Em. apply find_index_some; [exact str_cmp_eq|exact Hb].
    + rewrite Em. apply nodup_index; [exact str_cmp_eq|exact H2].
  - destruct (map_index Z.compare ""%string (m2s r) m0) as [m' v] eqn:E. simpl.
    assert (Em : m' = fst (map_index Z.compare ""%string (m2s r) m0)) by (rewrite E; reflexivity).
    split; simpl; [|exact H2].
    intros s m Hin. destruct (H1 s m Hin) as [Ha Hb]. split; [|exact Hb].
    rewrite Em. apply find_index_some; [exact z_cmp_eq|exact Ha].
Qed.

Lemma reg_ok_after methods h : reg_ok methods (reg_init methods) -> reg_ok methods (after_lookups methods h).
Proof.
  unfold after_lookups. generalize (reg_init methods) as r.
  induction h as [|l h IH]; simpl; intros r Hr; [exact Hr|]. apply IH, reg_ok_lookup, Hr.
Qed.

Definition reg_init_check (methods : list (string * Z)) : bool :=
  forallb (fun p => match map_find Z.compare (m2s (reg_init methods)) (snd p) with
                    | Some s => String.eqb s (fst p) | None => false end
                    && match map_find String.compare (s2m (reg_init methods)) (fst p) with
                       | Some m => Z.eqb m (snd p) | None => false end)%bool methods.

Lemma reg_init_ok methods :
  reg_init_check methods = true -> NoDup (map fst (s2m (reg_init methods))) -> reg_ok methods (reg_init methods).
Proof.
  intros Hc Hn. split; [|exact Hn]. intros s m Hin.
  unfold reg_init_check in Hc. rewrite forallb_forall in Hc. specialize (Hc _ Hin). simpl in Hc.
  apply andb_true_iff in Hc as [Ha Hb].
  destruct (map_find Z.compare _ m) as [s'|] eqn:E1; [|discriminate].
  destruct (map_find String.compare _ s) as [m'|] eqn:E2; [|discriminate].
  apply String.eqb_eq in Ha. apply Z.eqb_eq in Hb. subst. auto.
Qed.

Ltac nodup_strings := vm_compute; repeat (constructor; [simpl; intuition discriminate|]); constructor.

Lemma irk_reg_ok : reg_ok irk_methods (reg_init irk_methods).
Proof. apply reg_init_ok; [vm_compute; reflexivity|nodup_strings]. Qed.
Lemma erk_reg_ok : reg_ok erk_methods (reg_init erk_methods).
Proof. apply reg_init_ok; [vm_compute; reflexivity|nodup_strings]. Qed.

Definition registered (methods : list (string * Z)) : Prop := methods = irk_methods \/ methods = erk_methods.

Lemma registered_ok methods : registered methods -> reg_ok methods (reg_init methods).
Proof. intros [->| ->]; [exact irk_reg_ok|exact erk_reg_ok]. Qed.

Lemma roundtrip methods h s m :
  registered methods -> In (s, m) methods ->
  let r := after_lookups methods h in
  snd (method_to_name r m) = s /\ snd (name_to_method (fst (method_to_name r m)) s) = m /\
  snd (name_to_method r s) = m /\ snd (method_to_name (fst (name_to_method r s)) m) = s.
Proof.
  intros Hr Hin r. pose proof (reg_ok_after methods h (registered_ok _ Hr)) as [H1 _]. fold r in H1.
  destruct (H1 s m Hin) as [Ha Hb].
  unfold method_to_name, name_to_method.
  rewrite (index_value Z.compare ""%string _ _ _ Ha), (index_value String.compare 0 _ _ _ Hb). simpl.
  rewrite (index_value Z.compare ""%string _ _ _ Ha), (index_value String.compare 0 _ _ _ Hb). auto.
Qed.

Lemma names_after methods h x :
  registered methods ->
  (In x (all_method_names (after_lookups methods h)) <-> In x (map fst methods) \/ In (ByName x) h).
Proof.
  intros Hr.
  assert (H0 : forall y, In y (all_method_names (reg_init methods)) <-> In y (map fst methods)).
  { intros y. destruct Hr as [->| ->]; vm_compute; tauto. }
  unfold after_lookups. rewrite <- H0. clear H0. generalize (reg_init methods) as r.
  induction h as [|l h IH]; intros r; simpl; [tauto|].
  rewrite IH. destruct l as [s0|m0]; unfold do_lookup, name_to_method, method_to_name, all_method_names.
  - destruct (map_index String.compare 0 (s2m r) s0) as [m' v] eqn:E. simpl.
    replace m' with (fst (map_index String.compare 0 (s2m r) s0)) by (rewrite E; reflexivity).
    rewrite (keys_index String.compare str_cmp_eq).
    split; [intros [[->|H]|H]; auto|]. intros [H|[H|H]]; auto. injection H as ->. auto.
  - destruct (map_index Z.compare ""%string (m2s r) m0) as [m' v] eqn:E. simpl.
    split; [intros [H|H]; auto|]. intros [H|[H|H]]; auto. discriminate.
Qed.

Lemma names_nodup methods h :
  registered methods -> NoDup (all_method_names (after_lookups methods h)).
Proof. intros Hr. apply (reg_ok_after methods h (registered_ok _ Hr)). Qed.

(** The value of an unregistered name is 0 for ever. *)
Definition unreg_zero (methods : list (string * Z)) (r : registry) : Prop :=
  forall s, ~ In s (map fst methods) -> map_find String.compare (s2m r) s = None \/ map_find String.compare (s2m r) s = Some 0.
Definition unreg_empty (methods : list (string * Z)) (r : registry) : Prop :=
  forall m, ~ In m (map snd methods) -> map_find Z.compare (m2s r) m = None \/ map_find Z.compare (m2s r) m = Some ""%string.

Lemma unreg_step methods r l :
  unreg_zero methods r /\ unreg_empty methods r -> unreg_zero methods (do_lookup r l) /\ unreg_empty methods (do_lookup r l).
Proof.
  intros [Hz He]. destruct l as [s0|m0]; unfold do_lookup, name_to_method, method_to_name.
  - unfold map_index. destruct (map_find String.compare (s2m r) s0) eqn:E; simpl; [auto|].
    split; [|exact He]. intros s Hs. simpl. destruct (String.string_dec s s0) as [->|Hn].
    + right. apply find_insert_same; [exact str_cmp_eq|exact E].
    + rewrite find_insert_other; [auto|exact str_cmp_eq|exact Hn].
  - unfold map_index. destruct (map_find Z.compare (m2s r) m0) eqn:E; simpl; [auto|].
    split; [exact Hz|]. intros m Hm. simpl. destruct (Z.eq_dec m m0) as [->|Hn].
    + right. apply find_insert_same; [exact z_cmp_eq|exact E].
    + rewrite find_insert_other; [auto|exact z_cmp_eq|exact Hn].
Qed.

Lemma unreg_after methods h :
  registered methods ->
  unreg_zero methods (after_lookups methods h) /\ unreg_empty methods (after_lookups methods h).
Proof.
  intros Hr. unfold after_lookups.
  assert (H0 : unreg_zero methods (reg_init methods) /\ unreg_empty methods (reg_init methods)).
  { split; intros x Hx; left.
    - apply find_None; [exact str_cmp_eq|]. intros H. apply Hx.
      destruct Hr as [->| ->]; vm_compute in H |- *; tauto.
    - apply find_None; [exact z_cmp_eq|]. intros H. apply Hx.
      destruct Hr as [->| ->]; vm_compute in H |- *; tauto. }
  revert H0. generalize (reg_init methods) as r.
  induction h as [|l h IH]; simpl; intros r H; [exact H|]. apply IH, unreg_step, H.
Qed.

Lemma unknown_lookup methods h :
  registered methods ->
  (forall s, ~ In s (map fst methods) -> snd (name_to_method (after_lookups methods h) s) = 0) /\
  (forall m, ~ In m (map snd methods) -> snd (method_to_name (after_lookups methods h) m) = ""%string).
Proof.
  intros Hr. destruct (unreg_after methods h Hr) as [Hz He]. split.
  - intros s Hs. unfold name_to_method, map_index.
    destruct (Hz s Hs) as [->| ->]; reflexivity.
  - intros m Hm. unfold method_to_name, map_index.
    destruct (He m Hm) as [->| ->]; reflexivity.
Qed.

Lemma lookup_pollutes :
  exists h x, ~ In x (map fst irk_methods) /\ In x (all_method_names (after_lookups irk_methods h)).
Proof.
  exists [ByName "RADAU_IIA_5"%string], "RADAU_IIA_5"%string. split.
  - vm_compute. intuition discriminate.
  - apply names_after; [left; reflexivity|]. right. left. reflexivity.
Qed.
