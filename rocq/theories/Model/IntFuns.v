(** irk.cpp: factorial and binom_coeff, on 32-bit [int]. *)
From Verif Require Import Model.Base.
Local Open Scope Z_scope.
Local Open Scope mon_scope.

Definition INT_MAX : Z := 2147483647.
Definition INT_MIN : Z := -2147483648.
(** The result of an [int] operation: overflow is undefined behaviour. *)
Definition int_ok (z : Z) : res Z := if (INT_MIN <=? z) && (z <=? INT_MAX) then Ok z else Err EUB.

(** irk.cpp:77-87, factorial; the loop runs i over 1..n *)
Definition factorial (n : Z) : res Z :=
  if n <=? 1 then Ok 1
  else foldR (fun i r => int_ok (r * Z.of_nat i)) (seq 1 (Z.to_nat n)) 1.

(** irk.cpp:92-95, binom_coeff; C++ [/] truncates *)
Definition binom_coeff (n b : Z) : res Z :=
  fn <-- factorial n ;;
  fb <-- factorial b ;;
  nb <-- int_ok (n - b) ;;
  fnb <-- factorial nb ;;
  d <-- int_ok (fb * fnb) ;;
  int_ok (Z.quot fn d).
