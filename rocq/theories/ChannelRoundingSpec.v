(** Kinematics of a channel in exact arithmetic, on the numbers the doubles stand for. *)
From Coq Require Import Reals.
From Flocq Require Import Core.Core IEEE754.BinarySingleNaN.
From Verif Require Import DoubleModel.
Open Scope R_scope.

Definition moderate (x : double) : Prop := is_finite x = true /\ bpow radix2 (-100) <= B2R x <= bpow radix2 100.
(** The energy may be negative (bound levels) *)
Definition moderate_energy (x : double) : Prop := is_finite x = true /\ bpow radix2 (-100) <= Rabs (B2R x) <= bpow radix2 100.
Definition moderate_Q (x : double) : Prop := is_finite x = true /\ Rabs (B2R x) <= bpow radix2 100.

(** The energy in the centre of mass before the reaction, and after it *)
Definition before (ma mb energy : double) : R := B2R energy * B2R mb / (B2R ma + B2R mb).
Definition after (ma mb q energy : double) : R := before ma mb energy + B2R q.
(** [kappa] is the loss by cancellation: the larger the closer to the threshold, and 1 for
    elastic scattering *)
Definition cancellation (ma mb q energy : double) (kappa : R) : Prop :=
  Rabs (before ma mb energy) <= kappa * Rabs (after ma mb q energy) /\ 1 <= kappa <= bpow radix2 30.
(** k a with hbar^2 k^2 = 2 mu |E| *)
Definition rho_exact (hbar unit ma mb mc md q radius energy : double) : R :=
  sqrt (2 * (B2R mc * B2R md / (B2R mc + B2R md)) * Rabs (after ma mb q energy)) / B2R hbar * B2R unit * B2R radius.
Definition rho_older (neutronConstant awr radius energy : double) : R :=
  B2R neutronConstant * (B2R awr / (B2R awr + 1)) * sqrt (Rabs (B2R energy)) * B2R radius.
(** The range of channel ratios, a little smaller than in RoundingSpec.v *)
Definition in_middle (rho : R) : Prop := bpow radix2 (-49) <= rho <= bpow radix2 49.
