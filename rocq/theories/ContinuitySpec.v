(** Cross sections as continuous functions of the energy. *)
From Coq Require Import Reals String.
From mathcomp Require Import all_ssreflect all_algebra.
From Verif Require Import Outcome KinematicsModel CoulombModel Cplx RMatrixModel RMatrixSpec ChannelModel SpinGroupModel SpinGroupSpec.
Set Implicit Arguments.
Unset Strict Implicit.
Unset Printing Implicit Defensive.

(** A neutron, photon or fission channel.  The energy is not its threshold, or it is that of a
    neutron exit channel whose boundary condition is the shift factor at the threshold, -l, or
    the shift factor itself. *)
Definition plain (b : boundary_option) (energy : R) (c : channel) : Prop :=
  match c_type c with
  | HardSphereModel.Photon | HardSphereModel.Fission =>
      ((exists a, c_radii c = radii1 (Fixed a)) \/ (exists a a', c_radii c = radii2 (Fixed a) (Fixed a'))) /\
      forall ratio, pp_ratio (c_incident c) = Some ratio -> (energy * ratio + c_q c <> 0)%re
  | HardSphereModel.Neutron =>
      (QuantumModel.ql (c_numbers c) <= 4)%N /\
      (p_charge (pp_particle (c_pair c)) * p_charge (pp_residual (c_pair c)) = 0)%re /\
      (exists mu ratio, pp_reduced (c_pair c) = Some mu /\ (0 < mu)%re /\
         pp_ratio (c_incident c) = Some ratio /\
         ((energy * ratio + c_q c <> 0)%re \/
          (isIncidentChannel c = false /\
           (b = ShiftFactor \/ c_boundary c = (- INR (QuantumModel.ql (c_numbers c)))%re)))) /\
      exists a a', c_radii c = radii2 (Fixed a) (Fixed a') /\ (0 < a)%re /\ (0 < a')%re
  | HardSphereModel.ChargedParticle => False
  end.

Section Evaluation.
Variables (hbar epsilon0 : R) (cwf : nat -> R -> R -> outcome coulomb) (b : boundary_option) (g : group).
Notation evalG := (@evaluateGroup hbar epsilon0 cwf b g).
(** Close to this energy the group can be evaluated, it adds [x e k] to reaction k, and every
    [x e k] is a continuous function of e at this energy. *)
Definition continuous_at (energy : R) : Prop :=
  exists x : R -> reactionID -> R,
    (exists d, (0 < d)%re /\ forall e, (Rabs (e - energy) < d)%re -> forall s m, exists s' m',
       evalG e s m = Ok (Some (s', m')) /\ added (written g) (x e) m m') /\
    forall k, continuity_pt (fun e => x e k) energy.
End Evaluation.
