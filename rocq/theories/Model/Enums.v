(** enums.hpp and the name lookups of irk.cpp / erk.cpp. *)
From Coq Require Import String.
From Verif Require Import Model.Base.
Local Open Scope Z_scope.
Local Open Scope string_scope.

(** enums.hpp:38-58, [FOREACH_IRK_METHOD] *)
Definition irk_methods : list (string * Z) :=
  [ ("IMPLICIT_EULER", 200);
    ("RADAU_IIA_32", 210); ("RADAU_IIA_53", 211); ("RADAU_IIA_95", 212); ("RADAU_IIA_137", 213);
    ("LOBATTO_IIIA_43", 220); ("LOBATTO_IIIA_85", 221); ("LOBATTO_IIIA_127", 222);
    ("LOBATTO_IIIC_43", 230); ("LOBATTO_IIIC_64", 231); ("LOBATTO_IIIC_85", 232); ("LOBATTO_IIIC_127", 233);
    ("GAUSS_LEGENDRE_42", 240); ("GAUSS_LEGENDRE_63", 241); ("GAUSS_LEGENDRE_105", 242);
    ("GAUSS_LEGENDRE_147", 243) ].

(** enums.hpp:61-69, [FOREACH_ERK_METHOD] *)
Definition erk_methods : list (string * Z) :=
  [ ("EXPLICIT_EULER", 100); ("RUNGE_KUTTA_4", 110); ("BOGACKI_SHAMPINE_32", 120);
    ("CASH_KARP_54", 130); ("DORMAND_PRINCE_54", 131); ("FEHLBERG_54", 132) ].

(** The method ids by name (enums.hpp:84-96). *)
Definition IMPLICIT_EULER := 200.
Definition RADAU_IIA_32 := 210.
Definition RADAU_IIA_53 := 211.
Definition RADAU_IIA_95 := 212.
Definition RADAU_IIA_137 := 213.
Definition LOBATTO_IIIA_43 := 220.
Definition LOBATTO_IIIA_127 := 222.
Definition LOBATTO_IIIC_43 := 230.
Definition LOBATTO_IIIC_64 := 231.
Definition LOBATTO_IIIC_85 := 232.
Definition GAUSS_LEGENDRE_42 := 240.
Definition GAUSS_LEGENDRE_147 := 243.
Definition EXPLICIT_EULER := 100.
Definition RUNGE_KUTTA_4 := 110.
Definition BOGACKI_SHAMPINE_32 := 120.
Definition CASH_KARP_54 := 130.
Definition DORMAND_PRINCE_54 := 131.
Definition FEHLBERG_54 := 132.

(** enums.hpp:103-127, [odeint_status_codes] *)
Definition SUCCESS := 0.
Definition DT_TOO_SMALL := 1.
Definition INTERNAL_SOLVE_FEW_ITERS := 2.
Definition GENERAL_ERROR := 4.
Definition DT_TOO_LARGE := 8.
Definition INTERNAL_SOLVE_FAILURE := 16.
Definition ERROR_LARGER_THAN_RELTOL := 32.
Definition ERROR_LARGER_THAN_ABSTOL := 64.
Definition ERROR_MAX_STEPS_EXCEEDED := 128.

(** [std::map<K,V>] as a list of pairs in increasing key order; [m[k]] inserts a default value when
    the key is absent.  Initialisation from a braced list inserts the pairs one after the other (the first
    pair of a key wins). *)
Section Map.
  Context {K V : Type} (cmp : K -> K -> comparison).
  Fixpoint map_find (m : list (K * V)) (k : K) : option V :=
    match m with
    | [] => None
    | (k', v) :: m' => match cmp k k' with Eq => Some v | _ => map_find m' k end
    end.
  Fixpoint map_insert (m : list (K * V)) (k : K) (v : V) : list (K * V) :=
    match m with
    | [] => [(k, v)]
    | (k', v') :: m' =>
        match cmp k k' with
        | Eq => m
        | Lt => (k, v) :: m
        | Gt => (k', v') :: map_insert m' k v
        end
    end.
  (** [operator[]]: the map after the call and the value read. *)
  Definition map_index (dflt : V) (m : list (K * V)) (k : K) : list (K * V) * V :=
    match map_find m k with
    | Some v => (m, v)
    | None => (map_insert m k dflt, dflt)
    end.
  Definition map_init (l : list (K * V)) : list (K * V) :=
    fold_left (fun m p => map_insert m (fst p) (snd p)) l [].
End Map.

(** The two static maps (irk.hpp:127-133, erk.hpp:114-120).  They are [static] in a header, so every
    translation unit has its own copy; the functions below all live in one translation unit and share one. *)
Record registry := Registry {
  m2s : list (Z * string);
  s2m : list (string * Z)
}.

Definition reg_init (methods : list (string * Z)) : registry :=
  Registry (map_init Z.compare (map (fun p => (snd p, fst p)) methods))
           (map_init String.compare methods).

(** irk.cpp:709-712, erk.cpp:259-262, [method_to_name] *)
Definition method_to_name (r : registry) (m : Z) : registry * string :=
  let (m', s) := map_index Z.compare "" (m2s r) m in (Registry m' (s2m r), s).

(** irk.cpp:715-718, erk.cpp:265-268, [name_to_method] *)
Definition name_to_method (r : registry) (s : string) : registry * Z :=
  let (m', v) := map_index String.compare 0 (s2m r) s in (Registry (m2s r) m', v).

(** irk.cpp:721-728, erk.cpp:271-278, [all_method_names] *)
Definition all_method_names (r : registry) : list string := List.map fst (s2m r).

(** Histories of lookups. *)
Inductive lookup := ByName (s : string) | ById (m : Z).
Definition do_lookup (r : registry) (l : lookup) : registry :=
  match l with
  | ByName s => fst (name_to_method r s)
  | ById m => fst (method_to_name r m)
  end.
Definition after_lookups (methods : list (string * Z)) (h : list lookup) : registry :=
  fold_left do_lookup h (reg_init methods).
