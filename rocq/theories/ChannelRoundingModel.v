(** The kinematics of a channel on doubles: the functions of KinematicsModel.v with every operation
    rounded to nearest, as in RoundingModel.v.
    The conversion of units on return from waveNumber is done by the unit library, which is not
    part of the repository; it is taken to be one multiplication by the double [unit].
    Paths are relative to /repo/src/resonanceReconstruction. *)
From Coq Require Import String List ZArith.
From Flocq Require Import Core.Zaux IEEE754.BinarySingleNaN.
From Verif Require Import Outcome HardSphereModel DoubleModel RoundingModel.
Open Scope Z_scope.

Definition root : double -> double := Bsqrt (prec := 53) (emax := 1024) (prec_gt_0_ := eq_refl) (prec_lt_emax_ := eq_refl) mode_NE.

(** rmatrix/ParticlePair/src/ctor.hpp:17-22 *)
Definition reduced64 (ma mb : double) : double := (ma * mb / (ma + mb))%D.
Definition ratio64 (ma mb : double) : double := (mb / (ma + mb))%D.
(** rmatrix/Channel/src/waveNumber.hpp:13-19: [ma], [mb] are the masses of the incident pair and
    [mc], [md] those of the pair of the channel *)
Definition wave64 (hbar unit ma mb mc md q energy : double) : double :=
  (root (#2 * reduced64 mc md * Babs (energy * ratio64 ma mb + q)) / hbar * unit)%D.
(** rmatrix/Channel/src/belowThreshold.hpp:12-16 *)
Definition belowThreshold64 (ma mb q energy : double) : bool :=
  Bltb (ratio64 ma mb * energy + q)%D (double_of 0).
(** rmatrix/Channel/src/penetrability.hpp:6-13 and shiftFactor.hpp:6-13 for a neutron channel,
    which does not use eta *)
Definition channelRatio64 (hbar unit ma mb mc md q radius energy : double) : double :=
  (wave64 hbar unit ma mb mc md q energy * radius)%D.
Definition channelPenetrability64 (l : nat) (hbar unit ma mb mc md q radius energy : double) : outcome double :=
  penetrability64 l (channelRatio64 hbar unit ma mb mc md q radius energy).
Definition channelShift64 (l : nat) (hbar unit ma mb mc md q radius energy : double) : outcome double :=
  shift64 l (channelRatio64 hbar unit ma mb mc md q radius energy).

(** src/neutronWaveNumber.hpp:11-20, the older interface *)
Definition neutronWave64 (neutronConstant atomicWeightRatio energy : double) : double :=
  (neutronConstant * atomicWeightRatio / (atomicWeightRatio + #1) * root (Babs energy))%D.
