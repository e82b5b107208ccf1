(** Property theorems about the method-name lookups (C04, C05). *)
From Coq Require Import String.
From Verif Require Import Model.Base Model.Enums Proofs.EnumsProofs.
Local Open Scope Z_scope.

(** C04.  Names and ids of registered methods translate into each other after any history of lookups. *)
Theorem C04_names_round_trip :
  forall methods (h : list lookup) s m, methods = irk_methods \/ methods = erk_methods -> In (s, m) methods ->
  let r := after_lookups methods h in
  snd (method_to_name r m) = s /\ snd (name_to_method (fst (method_to_name r m)) s) = m /\
  snd (name_to_method r s) = m /\ snd (method_to_name (fst (name_to_method r s)) m) = s.
Proof. exact roundtrip. Qed.
Print Assumptions C04_names_round_trip.

Example C04_example :
  let r := after_lookups irk_methods [ByName "nonsense"%string; ById 7; ByName "RADAU_IIA_53"%string] in
  In ("RADAU_IIA_53"%string, 211) irk_methods /\ snd (method_to_name r 211) = "RADAU_IIA_53"%string /\
  snd (name_to_method r "LOBATTO_IIIC_85"%string) = 232.
Proof. vm_compute. tauto. Qed.

(** Unknown names give 0, unknown ids give the empty name, whatever happened before. *)
Theorem C04_unknown_lookups :
  forall methods (h : list lookup), methods = irk_methods \/ methods = erk_methods ->
  (forall s, ~ In s (map fst methods) -> snd (name_to_method (after_lookups methods h) s) = 0) /\
  (forall m, ~ In m (map snd methods) -> snd (method_to_name (after_lookups methods h) m) = ""%string).
Proof. exact unknown_lookup. Qed.
Print Assumptions C04_unknown_lookups.

(** C05.  The advertised list: the registered names plus every name ever asked for, without duplicates. *)
Theorem C05_all_method_names_after_lookups :
  forall methods (h : list lookup) x, methods = irk_methods \/ methods = erk_methods ->
  (In x (all_method_names (after_lookups methods h)) <-> In x (map fst methods) \/ In (ByName x) h).
Proof. exact names_after. Qed.
Print Assumptions C05_all_method_names_after_lookups.

Theorem C05_all_method_names_nodup :
  forall methods (h : list lookup), methods = irk_methods \/ methods = erk_methods ->
  NoDup (all_method_names (after_lookups methods h)).
Proof. exact names_nodup. Qed.
Print Assumptions C05_all_method_names_nodup.

(** "A lookup does not change the list of methods" is refuted. *)
Theorem C05_lookup_is_readonly_refuted :
  exists h x, ~ In x (map fst irk_methods) /\ In x (all_method_names (after_lookups irk_methods h)).
Proof. exact lookup_pollutes. Qed.
Print Assumptions C05_lookup_is_readonly_refuted.
