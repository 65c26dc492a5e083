(** What is assumed of std::atan: for every double but NaN it returns a finite double within one unit in the
    last place of the arc tangent; the arc tangent of an infinity is a right angle. *)
From Coq Require Import Reals.
From Flocq Require Import Core.Core IEEE754.BinarySingleNaN.
From Verif Require Import DoubleModel.
Open Scope R_scope.

Definition angle (q : double) : R :=
  match q with
  | B754_infinity false => PI / 2
  | B754_infinity true => - (PI / 2)
  | q => atan (B2R q)
  end.
Definition accurate (atan64 : double -> double) : Prop := forall q, is_nan q = false ->
  is_finite (atan64 q) = true /\ Rabs (B2R (atan64 q) - angle q) <= bpow radix2 (-52) * Rabs (angle q) + bpow radix2 (-1074).
