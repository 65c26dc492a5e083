(** C64: the rounding error of the hard-sphere penetrability and shift factor. *)
From Coq Require Import List ZArith Reals.
From Flocq Require Import Core.Core IEEE754.BinarySingleNaN.
From Verif Require Import Outcome HardSphereSpec DoubleModel RoundingModel RoundingSpec RoundingProofs.
Open Scope R_scope.

(** For every double between 2^-50 and 2^50 the newer interface returns a finite double within 41 half units
    of the penetrability and of the shift factor of the free waves. *)
Theorem C64_penetrability l x : in_range x -> (l <= 4)%nat -> exists p, penetrability64 l x = Ok p /\
  is_finite p = true /\ Rabs (B2R p - P_spec l (B2R x)) <= 41 * bpow radix2 (-53) * P_spec l (B2R x).
Proof. exact (P_64 l x). Qed.
Theorem C64_shift_factor l x : in_range x -> (l <= 4)%nat -> exists s, shift64 l x = Ok s /\
  is_finite s = true /\ Rabs (B2R s - S_spec l (B2R x)) <= 41 * bpow radix2 (-53) * - S_spec l (B2R x).
Proof. exact (S_64 l x). Qed.
(** So does the older one *)
Theorem C64_older l x : in_range x -> (l <= 4)%nat -> exists p s, penetrationShift64 (Z.of_nat l) x = Ok (p, s) /\
  (is_finite p = true /\ Rabs (B2R p - P_spec l (B2R x)) <= 41 * bpow radix2 (-53) * P_spec l (B2R x)) /\
  (is_finite s = true /\ Rabs (B2R s - S_spec l (B2R x)) <= 41 * bpow radix2 (-53) * - S_spec l (B2R x)).
Proof. exact (old_64 l x). Qed.
(** and what they compute differs by 82 half units at most. *)
Theorem C64_interfaces l x : in_range x -> (l <= 4)%nat -> exists p s p' s',
  penetrability64 l x = Ok p /\ shift64 l x = Ok s /\ penetrationShift64 (Z.of_nat l) x = Ok (p', s') /\
  Rabs (B2R p - B2R p') <= 82 * bpow radix2 (-53) * P_spec l (B2R x) /\ Rabs (B2R s - B2R s') <= 82 * bpow radix2 (-53) * - S_spec l (B2R x).
Proof. exact (interfaces_64 l x). Qed.
(** Without a bound it fails: the penetrability overflows, or is not a number. *)
Theorem C64_unbounded_refuted : (exists x p, is_finite x = true /\ 0 < B2R x /\ penetrability64 4 x = Ok p /\ is_finite p = false) /\
  (exists x p, is_finite x = true /\ 0 < B2R x /\ penetrability64 4 x = Ok p /\ is_nan p = true).
Proof. exact (conj overflow_case nan_case). Qed.
Print Assumptions C64_penetrability.
Print Assumptions C64_shift_factor.
Print Assumptions C64_older.
Print Assumptions C64_interfaces.
Print Assumptions C64_unbounded_refuted.

Example C64_case : in_range (double_of 1).
Proof. exact range_case. Qed.
