(** The threshold laws of cross sections. *)
From Coq Require Import Reals String.
From mathcomp Require Import all_ssreflect all_algebra.
From Verif Require Import Outcome KinematicsModel CoulombModel Cplx RMatrixModel RMatrixSpec ChannelModel SpinGroupModel SpinGroupSpec.
Set Implicit Arguments.
Unset Strict Implicit.
Unset Printing Implicit Defensive.

(** A neutron, photon or fission channel close to energy zero.  The threshold of an incident
    channel is at zero, and that of another neutron channel may be; the boundary condition is
    then the shift factor at the threshold, -l, or the shift factor itself. *)
Definition slow (b : boundary_option) (c : channel) : Prop :=
  (exists ratio, pp_ratio (c_incident c) = Some ratio /\ (0 < ratio)%re) /\
  match c_type c with
  | HardSphereModel.Photon | HardSphereModel.Fission =>
      ((exists a, c_radii c = radii1 (Fixed a)) \/ (exists a a', c_radii c = radii2 (Fixed a) (Fixed a'))) /\
      isIncidentChannel c = false
  | HardSphereModel.Neutron =>
      (QuantumModel.ql (c_numbers c) <= 4)%N /\
      (p_charge (pp_particle (c_pair c)) * p_charge (pp_residual (c_pair c)) = 0)%re /\
      (exists mu, pp_reduced (c_pair c) = Some mu /\ (0 < mu)%re) /\
      (exists a a', c_radii c = radii2 (Fixed a) (Fixed a') /\ (0 < a)%re /\ (0 < a')%re) /\
      (isIncidentChannel c -> c_q c = 0%re) /\
      (c_q c = 0%re -> b = ShiftFactor \/ c_boundary c = (- INR (QuantumModel.ql (c_numbers c)))%re)
  | HardSphereModel.ChargedParticle => False
  end.

(** (2l - 1)!! *)
Fixpoint odd_factorial (l : nat) : R :=
  match l with 0%N => 1%re | S p => (INR (2 * p + 1) * odd_factorial p)%re end.

(** f tends to w when e tends to zero from above *)
Definition at_zero (f : R -> R) (w : R) : Prop :=
  forall eps, (0 < eps)%re -> exists d, (0 < d)%re /\ forall e, (0 < e < d)%re -> (Rabs (f e - w) < eps)%re.

Section Law.
Variables (hbar : R) (l : nat).
(** k^2 / E for a channel whose threshold is zero, and the two channel radii *)
Definition kappa2 (c : channel) : R :=
  match pp_reduced (c_pair c), pp_ratio (c_incident c) with
  | Some mu, Some ratio => (2 * mu * ratio / (hbar * hbar))%re
  | _, _ => 0%re
  end.
Definition channel_radius (c : channel) : R := match r_P (c_radii c) with Fixed a => a | _ => 0%re end.
Definition scattering_radius (c : channel) : R := match r_phi (c_radii c) with Fixed a => a | _ => 0%re end.
(** what P / E^(l + 1/2) and phi / E^(l + 1/2) tend to; zero for a larger angular momentum *)
Definition lead_P (c : channel) : R :=
  if QuantumModel.ql (c_numbers c) == l then ((sqrt (kappa2 c) * channel_radius c) ^ (2 * l + 1) / (odd_factorial l * odd_factorial l))%re else 0%re.
Definition lead_phi (c : channel) : R :=
  if QuantumModel.ql (c_numbers c) == l then ((sqrt (kappa2 c) * scattering_radius c) ^ (2 * l + 1) / (odd_factorial l * odd_factorial l.+1))%re else 0%re.
(** what E times the factor pi / k^2 g is *)
Definition lead_factor (c : channel) : R := (pi_value / kappa2 c * spinFactor c)%re.

Section Group.
Variables (g : group) (vs : seq values) (A : 'M[cx]_(gsize g)).
(** the limits for a reaction without incident channels and for one with only incident
    channels, [vs] and [A] being the channel values and the matrix R_L at energy zero *)
Definition reaction_limit (k : reactionID) : R :=
  (4 * lead_factor (first_incident g) * \big[Rplus/0]_(c : 'I_(gsize g) | isIncidentChannel (chan c))
     (lead_P (chan c) *
      (\big[Rplus/0]_(j | c_reaction (chan j) == k) (v_P (val_of vs j) * norm2 (A c j))
       + (if k == capture_id g then im (A c c) - \big[Rplus/0]_j (v_P (val_of vs j) * norm2 (A c j)) else 0))))%re.
Definition elastic_limit (k : reactionID) : R :=
  (4 * lead_factor (first_incident g) * \big[Rplus/0]_(c : 'I_(gsize g) | isIncidentChannel (chan c))
     \big[Rplus/0]_(j : 'I_(gsize g) | c_reaction (chan j) == k)
        norm2 ((if j == c then rcx (lead_phi (chan c)) else 0%R) - rcx (sqrt (lead_P (chan c)) * sqrt (lead_P (chan j))) * A c j)%R)%re.
End Group.
End Law.
