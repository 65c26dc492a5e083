(** Unresolved resonance cross sections on doubles: the part of UnresolvedModel.v from the
    penetrability and phase shift of the channel and the average parameters at the energy to the cross
    sections, with every operation rounded to nearest.  Each operation of the source is taken to be
    one IEEE operation (no fused multiply-add, no extended precision), in the order the source has
    them.  Units are not modelled.  Paths are relative to /repo/src/resonanceReconstruction/rmatrix. *)
From Coq Require Import String List ZArith.
From Flocq Require Import Core.Zaux IEEE754.BinarySingleNaN.
From Verif Require Import Outcome UnresolvedModel DoubleModel RoundingModel ChannelRoundingModel FluctuationRoundingModel.
Import ListNotations.
Open Scope Z_scope.

(** legacy/unresolved/Resonance.hpp:13-20, without the energy *)
Record parameters64 : Type := mkParameters64
  { a_spacing : double; a_elastic : double; a_capture : double; a_fission : double; a_competition : double }.

(** legacy/unresolved/SpinGroup/src/evaluate.hpp:20, 32-36 *)
Definition unresolvedWidths64 (energy penetrability waveNumber radius : double) (x : parameters64) (degrees : data nat) : data double :=
  let ratio := (waveNumber * radius)%D in
  let vl := (double_of (Z.of_nat (d_elastic degrees)) * penetrability / ratio)%D in
  mkData (a_elastic x * root energy * vl)%D (a_capture x) (a_fission x) (a_competition x).

(** legacy/unresolved/SpinGroup/src/evaluate.hpp:20-53: what is added to the cross sections.  sinphi is
    what std::sin returns.  Fission is left out if its width is zero (legacy/Data.hpp:50). *)
Definition unresolved64 (pi waveNumber radius spinFactor energy penetrability sinphi : double) (x : parameters64) (degrees : data nat)
    : outcome (double * double * option double) :=
  let sin2phi := (sinphi * sinphi)%D in
  let factor := (#2 * pi * pi / (waveNumber * waveNumber))%D in
  let spacing := a_spacing x in
  let widths := unresolvedWidths64 energy penetrability waveNumber radius x degrees in
  do integrals <- fluctuationIntegrals64 widths degrees ;
  Ok ((factor * (spinFactor / spacing * (d_elastic widths * minus (d_elastic widths * d_elastic integrals) (#2 * sin2phi))))%D,
      (factor * spinFactor / spacing * (d_elastic widths * d_capture widths * d_capture integrals))%D,
      if nonzero64 (d_fission widths)
      then Some (factor * spinFactor / spacing * (d_elastic widths * d_fission widths * d_fission integrals))%D
      else None).
