(** Particles, particle pairs and channel kinematics.
    Paths are relative to /repo/src/resonanceReconstruction.
    Units are dropped: each quantity is the real number it has in one coherent system. *)
From Coq Require Import String List ZArith Reals.
From Verif Require Import Outcome QuantumModel SpinFactorModel HardSphereModel.
Import ListNotations.
Open Scope R_scope.

(** A double quotient as a finite number; [None] stands for an infinity or NaN. *)
Definition fdiv (a b : R) : option R := if Req_EM_T b 0 then None else Some (a / b).

(** rmatrix/Particle.hpp:14-19; the spin is stored doubled. *)
Record particle : Type := mkParticle
  { p_id : string; p_mass : R; p_charge : R; p_spin : Z; p_parity : Z }.

(** rmatrix/Particle/src/verifyNotNegative.hpp:1-12 *)
Definition verifyNotNegative (value : R) (name : string) : outcome unit :=
  if Rlt_dec value 0 then Throw (RuntimeError (name ++ " value cannot be negative.")) else Ok tt.

(** rmatrix/Particle/src/ctor.hpp:10-20 *)
Definition makeParticle (id : string) (mass charge : R) (spin parity : Z) : outcome particle :=
  do _ <- verifyNotNegative mass "Mass" ;
  do _ <- verifyNotNegative charge "Charge" ;
  Ok (mkParticle id mass charge spin parity).

(** rmatrix/ParticlePair.hpp:17-21.  The pair identifier is its symbol. *)
Record particlePair : Type := mkPair
  { pp_particle : particle; pp_residual : particle; pp_id : string;
    pp_reduced : option R; pp_ratio : option R }.

(** rmatrix/ParticlePair/src/ctor.hpp:13-22 *)
Definition makeParticlePair (a b : particle) (id : string) : particlePair :=
  mkPair a b id
    (fdiv (p_mass a * p_mass b) (p_mass a + p_mass b))
    (fdiv (p_mass b) (p_mass a + p_mass b)).

(** rmatrix/Channel/src/waveNumber.hpp:13-19, on finite numbers: [mu] the reduced mass of the
    channel's pair, [ratio] the mass ratio of the incident pair. *)
Definition waveNumber (hbar mu ratio q energy : R) : R :=
  sqrt (2 * mu * Rabs (energy * ratio + q)) / hbar.

(** rmatrix/Channel/src/belowThreshold.hpp:12-16 *)
Definition belowThreshold (ratio q energy : R) : bool :=
  if Rlt_dec (ratio * energy + q) 0 then true else false.

(** rmatrix/Channel/src/sommerfeldParameter.hpp:17-34; [z], [Z] are the charges.  At
    threshold the wave number is zero and the quotient is not a finite number. *)
Definition sommerfeldParameter (pi epsilon0 hbar z Z mu k : R) : option R :=
  let zZ := z * Z in
  if Req_EM_T zZ 0 then Some 0
  else match fdiv (hbar * hbar * k) mu with
       | None => None
       | Some d => fdiv (zZ / (4 * pi * epsilon0)) d
       end.

(** src/neutronWaveNumber.hpp:10-20, the older interface *)
Definition neutronWaveNumber (neutronConstant atomicWeightRatio energy : R) : R :=
  neutronConstant * atomicWeightRatio / (atomicWeightRatio + 1) * sqrt (Rabs energy).

(** src/channelRadius.hpp:1-6 *)
Definition channelRadius (atomicWeightRatio : R) : R :=
  0.123 * Rpower (1.00866491582 * atomicWeightRatio) (1 / 3) + 0.08.

(** rmatrix/Channel/src/makeReactionID.hpp:1-11; a reaction is elastic or a pair of pair
    identifiers. *)
Inductive reactionID : Type :=
| Elastic (particle residual : string)
| Transfer (from to : string).

Definition makeReactionID (incident pair : particlePair) : reactionID :=
  if string_dec (pp_id incident) (pp_id pair)
  then Elastic (p_id (pp_particle incident)) (p_id (pp_residual incident))
  else Transfer (pp_id incident) (pp_id pair).
