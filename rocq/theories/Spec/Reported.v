(** The orders an implicit method reports: of the solution and of the comparison formula; [None] is an int that was never assigned. *)
From Verif Require Import Model.Base Model.Enums.
Definition implicit_reported : list (Z * option Z * option Z) :=
  [(IMPLICIT_EULER, Some 1, Some 0); (LOBATTO_IIIA_43, Some 4, Some 2); (LOBATTO_IIIC_43, Some 4, Some 2); (LOBATTO_IIIC_64, Some 6, Some 4);
   (LOBATTO_IIIC_85, Some 8, Some 5); (GAUSS_LEGENDRE_42, Some 4, Some 2); (RADAU_IIA_32, Some 3, Some 2); (RADAU_IIA_53, Some 5, Some 3);
   (RADAU_IIA_95, Some 9, Some 5); (RADAU_IIA_137, Some 13, Some 7); (GAUSS_LEGENDRE_147, None, None); (LOBATTO_IIIA_127, None, None)]%Z.
