(** The arithmetic the code computes with ([double] in /repo), abstractly, and its two instances. *)
From Coq Require Import ZArith Reals Lra Bool.
From Flocq Require Import Core.Zaux.
From Flocq Require IEEE754.BinarySingleNaN.

Class Scalar (T : Type) := {
  sadd : T -> T -> T;
  ssub : T -> T -> T;
  smul : T -> T -> T;
  sdiv : T -> T -> T;
  sopp : T -> T;
  sltb : T -> T -> bool;        (* a < b *)
  sleb : T -> T -> bool;        (* a <= b *)
  seqb : T -> T -> bool;        (* a == b *)
  sabs : T -> T;                (* std::fabs *)
  ssqrt : T -> T;               (* std::sqrt *)
  spow : T -> T -> T;           (* std::pow *)
  slit : Z -> Z -> T;           (* the decimal literal m * 10^e *)
  sfinite : T -> bool           (* std::isfinite *)
}.

Declare Scope sc_scope.
Delimit Scope sc_scope with sc.
Infix "+." := sadd (at level 50, left associativity) : sc_scope.
Infix "-." := ssub (at level 50, left associativity) : sc_scope.
Infix "*." := smul (at level 40, left associativity) : sc_scope.
Infix "/." := sdiv (at level 40, left associativity) : sc_scope.
Notation "-. x" := (sopp x) (at level 35, right associativity) : sc_scope.
Infix "<?." := sltb (at level 70) : sc_scope.
Infix "<=?." := sleb (at level 70) : sc_scope.
Notation "a >?. b" := (sltb b a) (at level 70) : sc_scope.
Notation "a >=?. b" := (sleb b a) (at level 70) : sc_scope.
Infix "==?." := seqb (at level 70) : sc_scope.

Section Derived.
  Context {T : Type} `{Scalar T}.
  (** an integer converted to [double] *)
  Definition sZ (z : Z) : T := slit z 0.
  (** [std::min(a,b)] returns [b] iff [b < a]; [std::max(a,b)] returns [b] iff [a < b] (C++ standard;
      this fixes the behaviour on NaN). *)
  Definition smin (a b : T) : T := if sltb b a then b else a.
  Definition smax (a b : T) : T := if sltb a b then b else a.
End Derived.

(** enums.hpp:129: [static constexpr const double machine_precision = 1e-17]. *)
Definition machine_precision {T} `{Scalar T} : T := slit 1 (-17).

(** ** Exact real arithmetic *)

Definition Rltb (a b : R) : bool := if Rlt_dec a b then true else false.
Definition Rleb (a b : R) : bool := if Rle_dec a b then true else false.
Definition Reqb (a b : R) : bool := if Req_EM_T a b then true else false.

Definition Rlit (m e : Z) : R :=
  match e with
  | Z0 => IZR m
  | Zpos p => (IZR m * IZR (Z.pow_pos 10 p))%R
  | Zneg p => (IZR m / IZR (Z.pow_pos 10 p))%R
  end.

(** [pow] is used by the code only with a positive base; on other bases we fix an arbitrary value (0), which no
    theorem relies on. *)
Definition Rpow (x y : R) : R := if Rlt_dec 0 x then Rpower x y else 0%R.

#[export] Instance RScalar : Scalar R := {|
  sadd := Rplus; ssub := Rminus; smul := Rmult; sdiv := Rdiv; sopp := Ropp;
  sltb := Rltb; sleb := Rleb; seqb := Reqb;
  sabs := Rabs; ssqrt := sqrt; spow := Rpow; slit := Rlit;
  sfinite := fun _ => true
|}.

(** ** IEEE-754 binary64, round to nearest, ties to even

    [pow] is not specified by IEEE-754: it is a parameter.  Compiler contraction of [a*b+c] into a fused
    operation is not modelled. *)
Import BinarySingleNaN SpecFloat.

Definition f64 := binary_float 53 1024.

#[export] Instance prec_gt_0_53 : Flocq.Core.FLX.Prec_gt_0 53.
Proof. reflexivity. Qed.
#[export] Instance prec_lt_emax_1024 : Prec_lt_emax 53 1024.
Proof. reflexivity. Qed.

(** Correctly rounded [m * 10^e] (decimal literals of the source, of any length). *)
Definition f64_lit (m e : Z) : f64 :=
  match e with
  | Zneg p =>
      match m with
      | Z0 => B754_zero false
      | Zpos mp =>
          let '(mz, ez, lz) := SFdiv_core_binary 53 1024 (Zpos mp * 2 ^ 128) (-128) (Z.pow_pos 10 p) 0 in
          let s := SpecFloat.binary_round_aux 53 1024 false mz ez lz in
          match Bool.bool_dec (valid_binary 53 1024 s) true with
          | left H => SF2B s H
          | right _ => B754_nan
          end
      | Zneg mp =>
          let '(mz, ez, lz) := SFdiv_core_binary 53 1024 (Zpos mp * 2 ^ 128) (-128) (Z.pow_pos 10 p) 0 in
          let s := SpecFloat.binary_round_aux 53 1024 true mz ez lz in
          match Bool.bool_dec (valid_binary 53 1024 s) true with
          | left H => SF2B s H
          | right _ => B754_nan
          end
      end
  | _ => BinarySingleNaN.binary_normalize 53 1024 _ _ mode_NE (m * 10 ^ e) 0 false
  end.

Definition F64Scalar (pow64 : f64 -> f64 -> f64) : Scalar f64 := {|
  sadd := Bplus mode_NE; ssub := Bminus mode_NE; smul := Bmult mode_NE; sdiv := Bdiv mode_NE;
  sopp := Bopp;
  sltb := Bltb; sleb := Bleb; seqb := Beqb;
  sabs := Babs; ssqrt := Bsqrt mode_NE; spow := pow64; slit := f64_lit;
  sfinite := is_finite
|}.
