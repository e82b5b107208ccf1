(** Which method ids have coefficients in the library (the others are only enumerated). *)
From Verif Require Import Model.Base Model.Enums.

Definition explicit_methods : list Z :=
  [EXPLICIT_EULER; RUNGE_KUTTA_4; BOGACKI_SHAMPINE_32; CASH_KARP_54; DORMAND_PRINCE_54; FEHLBERG_54].
Definition implicit_methods : list Z :=
  [IMPLICIT_EULER; RADAU_IIA_32; RADAU_IIA_53; RADAU_IIA_95; RADAU_IIA_137; LOBATTO_IIIA_43; LOBATTO_IIIA_127;
   LOBATTO_IIIC_43; LOBATTO_IIIC_64; LOBATTO_IIIC_85; GAUSS_LEGENDRE_42; GAUSS_LEGENDRE_147].
(** enumerated (enums.hpp:38-58) but without coefficients *)
Definition LOBATTO_IIIA_85 : Z := 221.
Definition LOBATTO_IIIC_127 : Z := 233.
Definition GAUSS_LEGENDRE_63 : Z := 241.
Definition GAUSS_LEGENDRE_105 : Z := 242.

(** Explicit methods with a comparison formula, and those reusing the last stage. *)
Definition explicit_embedded : list Z := [BOGACKI_SHAMPINE_32; CASH_KARP_54; DORMAND_PRINCE_54; FEHLBERG_54].
Definition explicit_fsal : list Z := [BOGACKI_SHAMPINE_32; DORMAND_PRINCE_54].
(** Implicit methods whose coefficients are written in closed form, and as decimals. *)
Definition implicit_closed_form : list Z :=
  [IMPLICIT_EULER; RADAU_IIA_32; RADAU_IIA_53; LOBATTO_IIIA_43; LOBATTO_IIIC_43; LOBATTO_IIIC_64; LOBATTO_IIIC_85;
   GAUSS_LEGENDRE_42].
Definition implicit_decimal : list Z := [RADAU_IIA_95; RADAU_IIA_137; GAUSS_LEGENDRE_147; LOBATTO_IIIA_127].

(** Advertised orders of the explicit methods: main and comparison formula. *)
Definition explicit_orders : list (Z * nat * option nat) :=
  [(EXPLICIT_EULER, 1, None); (RUNGE_KUTTA_4, 4, None); (BOGACKI_SHAMPINE_32, 3, Some 2);
   (CASH_KARP_54, 5, Some 4); (DORMAND_PRINCE_54, 5, Some 4); (FEHLBERG_54, 5, Some 4)]%nat.
(** Advertised orders of the closed-form implicit methods (the first digit of the name). *)
Definition implicit_orders : list (Z * nat) :=
  [(IMPLICIT_EULER, 1); (RADAU_IIA_32, 3); (RADAU_IIA_53, 5); (LOBATTO_IIIA_43, 4); (LOBATTO_IIIC_43, 4);
   (LOBATTO_IIIC_64, 6); (LOBATTO_IIIC_85, 8); (GAUSS_LEGENDRE_42, 4)]%nat.
(** Number of stages and order of the underlying quadrature of the decimal implicit methods. *)
Definition decimal_orders : list (Z * nat * nat) :=
  [(RADAU_IIA_95, 5, 9); (RADAU_IIA_137, 7, 13); (GAUSS_LEGENDRE_147, 7, 14); (LOBATTO_IIIA_127, 7, 12)]%nat.
(** (method, advertised order2, order of the pair (gamma, b2) as a method with one more explicit stage). *)
Definition embedded_orders : list (Z * nat * nat) :=
  [(LOBATTO_IIIA_43, 2, 2); (RADAU_IIA_53, 3, 3); (LOBATTO_IIIC_43, 2, 1); (LOBATTO_IIIC_64, 4, 1);
   (GAUSS_LEGENDRE_42, 2, 1); (RADAU_IIA_32, 2, 0); (LOBATTO_IIIC_85, 5, 0)]%nat.
Definition radau_closed_form : list Z := [RADAU_IIA_32; RADAU_IIA_53].
(** Number of stages of the explicit methods. *)
Definition explicit_stage_counts : list (Z * nat) :=
  [(EXPLICIT_EULER, 1); (RUNGE_KUTTA_4, 4); (BOGACKI_SHAMPINE_32, 4); (CASH_KARP_54, 6); (DORMAND_PRINCE_54, 7);
   (FEHLBERG_54, 6)]%nat.
