(** C65: the rounding error of the hard-sphere phase shift. *)
From Coq Require Import List ZArith Reals.
From Flocq Require Import Core.Core IEEE754.BinarySingleNaN.
From Verif Require Import Outcome HardSphereModel HardSphereSpec DoubleModel RoundingModel RoundingSpec RoundingProofs PhaseRoundingModel PhaseRoundingSpec PhaseRoundingProofs PhaseRoundingCases.
Open Scope R_scope.

(** For every double between 2^-50 and 2^50, also where a denominator of the code is zero or nearly so, the
    computed phase shift is a finite double within 120 half units of 1 + rho of a phase of the free waves. *)
Theorem C65_phase_shift atan64 l x : accurate atan64 -> in_range x -> (l <= 4)%nat -> exists p phi, phase64 atan64 l x = Ok p /\
  is_finite p = true /\ is_phase l (B2R x) phi /\ Rabs (B2R p - phi) <= 120 * bpow radix2 (-53) * (1 + B2R x).
Proof. exact (phase_64 atan64 l x). Qed.
Theorem C65_older atan64 l x : accurate atan64 -> in_range x -> (l <= 4)%nat -> exists p phi, phaseShift64 atan64 (Z.of_nat l) x = Ok p /\
  is_finite p = true /\ is_phase l (B2R x) phi /\ Rabs (B2R p - phi) <= 120 * bpow radix2 (-53) * (1 + B2R x).
Proof. exact (phaseShift_64 atan64 l x). Qed.
(** So the cosine and sine of twice what either interface computes are those of the free waves. *)
Theorem C65_double_angle atan64 l x : accurate atan64 -> in_range x -> (l <= 4)%nat -> exists p p', phase64 atan64 l x = Ok p /\ phaseShift64 atan64 (Z.of_nat l) x = Ok p' /\
  forall q, q = p \/ q = p' ->
    Rabs (cos (2 * B2R q) - (waveG l (B2R x) ^ 2 - waveF l (B2R x) ^ 2) / amplitude2 l (B2R x)) <= 240 * bpow radix2 (-53) * (1 + B2R x) /\
    Rabs (sin (2 * B2R q) - 2 * waveF l (B2R x) * waveG l (B2R x) / amplitude2 l (B2R x)) <= 240 * bpow radix2 (-53) * (1 + B2R x).
Proof. exact (phase_double atan64 l x). Qed.
(** The error is not small relative to the phase shift: at rho = 2^-40 and l = 1 it is at least the phase shift
    itself, however good the arc tangent. *)
Theorem C65_relative_refuted : exists x, in_range x /\ forall atan64, accurate atan64 -> exists p phi, phase64 atan64 1 x = Ok p /\ phaseShift64 atan64 1 x = Ok p /\
  phase_neutron 1 (B2R x) = Ok phi /\ 0 < phi /\ phi <= Rabs (B2R p - phi).
Proof. exact relative_fails. Qed.
Print Assumptions C65_phase_shift.
Print Assumptions C65_older.
Print Assumptions C65_double_angle.
Print Assumptions C65_relative_refuted.

(** The hypotheses can be met. *)
Example C65_case : in_range (double_of 1) /\ exists atan64, accurate atan64.
Proof. exact (conj range_case (ex_intro _ _ atan_exists)). Qed.
