(** Property theorems about irk::factorial and irk::binom_coeff (C15). *)
From Verif Require Import Model.Base Model.IntFuns Spec.SmallSpecs Proofs.IntFunsProofs.
Local Open Scope Z_scope.

(** C15.  factorial is n! up to 12, and overflows its int for every larger argument. *)
Theorem C15_factorial_exact :
  forall n, (0 <= n <= 12 -> factorial n = Ok (Z.of_nat (fact (Z.to_nat n)))) /\
            (n <= 1 -> factorial n = Ok 1) /\
            (13 <= n -> factorial n = Err EUB).
Proof.
  exact (fun n => conj (factorial_exact n) (conj (factorial_neg n) (factorial_overflow n))).
Qed.
Print Assumptions C15_factorial_exact.

(** [pascal n k] is the entry of Pascal's triangle. *)
Theorem C15_binom_exact :
  forall n b, 0 <= b <= n -> n <= 12 -> binom_coeff n b = Ok (pascal (Z.to_nat n) (Z.to_nat b)).
Proof. exact binom_exact. Qed.
Print Assumptions C15_binom_exact.

Theorem C15_binom_overflow :
  forall n b, INT_MIN <= n <= INT_MAX -> INT_MIN <= b <= INT_MAX ->
  13 <= n \/ 13 <= b \/ 13 <= n - b -> binom_coeff n b = Err EUB.
Proof. exact binom_overflow. Qed.
Print Assumptions C15_binom_overflow.

Example C15_example : binom_coeff 12 5 = Ok 792 /\ factorial 7 = Ok 5040 /\ binom_coeff 14 3 = Err EUB.
Proof. vm_compute. auto. Qed.
