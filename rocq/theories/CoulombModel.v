(** Charged particle channel functions.  The Coulomb wave functions G, F, G', F' come from
    outside (coulombWaveFunctions, see CoulombWaveModel for the checks around them).
    Paths are relative to /repo/src/resonanceReconstruction. *)
From Coq Require Import String List ZArith Reals.
From Verif Require Import Outcome HardSphereModel KinematicsModel.
Import ListNotations.
Open Scope R_scope.

(** The four numbers set by coulombWaveFunctions( l, ratio, eta, gf, dgf ):
    gf = G + iF, dgf = G' + iF'. *)
Record coulomb : Type := mkCoulomb { cG : R; cF : R; cdG : R; cdF : R }.

(** rmatrix/src/calculatePenetrability.hpp:67-79 *)
Definition penetrability_charged (w : coulomb) (ratio : R) : R :=
  let F := cF w in let G := cG w in
  if Req_EM_T F 0 then (if Req_EM_T G 0 then 0 else ratio / (F * F + G * G))
  else ratio / (F * F + G * G).

(** rmatrix/src/calculateShiftFactor.hpp:63-78 *)
Definition shift_charged (w : coulomb) (ratio : R) : R :=
  let F := cF w in let G := cG w in
  let value := ratio / (F * F + G * G) * (F * cdF w + G * cdG w) in
  if Req_EM_T F 0 then (if Req_EM_T G 0 then 0 else value) else value.

(** rmatrix/src/calculatePhaseShift.hpp:62-75 *)
Definition phase_charged (w : coulomb) : R :=
  let F := cF w in let G := cG w in
  let value := acos (G / sqrt (F * F + G * G)) in
  if Req_EM_T F 0 then (if Req_EM_T G 0 then 0 else value) else value.

(** rmatrix/src/calculateCoulombPhaseShift.hpp:28-36: the accumulated 1. / std::tan( eta / n )
    for n = 1 .. l.  A zero tangent (only eta = 0 among representable arguments) gives no
    finite number. *)
Fixpoint coulombPhaseShift_charged (l : nat) (eta : R) : option R :=
  match l with
  | O => Some 0
  | S m => match coulombPhaseShift_charged m eta, fdiv 1 (tan (eta / INR (S m))) with
           | Some a, Some b => Some (a + b)
           | _, _ => None
           end
  end.

(** The default of calculateCoulombPhaseShift.hpp:7-10, calculateShiftFactor.hpp:6-10,
    calculatePhaseShift.hpp:7-11 and calculatePenetrability.hpp:7-11 for the other types,
    and the whole dispatch on the channel type.  [cwf] is coulombWaveFunctions. *)
Definition calculatePenetrability (cwf : nat -> R -> R -> outcome coulomb)
    (t : channel_type) (l : nat) (ratio eta : R) : outcome R :=
  match t with
  | Neutron => penetrability_neutron l ratio
  | ChargedParticle => omap (fun w => penetrability_charged w ratio) (cwf l ratio eta)
  | Photon | Fission => Ok 1
  end.

Definition calculateShiftFactor (cwf : nat -> R -> R -> outcome coulomb)
    (t : channel_type) (l : nat) (ratio eta : R) : outcome R :=
  match t with
  | Neutron => shift_neutron l ratio
  | ChargedParticle => omap (fun w => shift_charged w ratio) (cwf l ratio eta)
  | Photon | Fission => Ok 0
  end.

Definition calculatePhaseShift (cwf : nat -> R -> R -> outcome coulomb)
    (t : channel_type) (l : nat) (ratio eta : R) : outcome R :=
  match t with
  | Neutron => phase_neutron l ratio
  | ChargedParticle => omap phase_charged (cwf l ratio eta)
  | Photon | Fission => Ok 0
  end.

Definition calculateCoulombPhaseShift (t : channel_type) (l : nat) (eta : R) : option R :=
  match t with
  | ChargedParticle => coulombPhaseShift_charged l eta
  | Neutron | Photon | Fission => Some 0
  end.
