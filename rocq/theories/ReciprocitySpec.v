(** The same nucleus seen from another entrance channel. *)
From Coq Require Import Reals String ZArith.
From mathcomp Require Import all_ssreflect all_algebra.
From Verif Require Import Outcome Cplx KinematicsModel RMatrixModel ChannelModel SpinGroupModel SpinGroupSpec.
Set Implicit Arguments.
Unset Strict Implicit.
Unset Printing Implicit Defensive.

(** The channel for the incident pair [b]; Q values are counted from that pair, whose Q value
    was [qb] *)
Definition switched_channel (b : particlePair) (qb : R) (c : channel) : channel :=
  makeChannel (c_type c) b (c_pair c) (pp_id (c_pair c)) (c_q c - qb)%re (c_numbers c) (c_radii c) (c_boundary c).
(** The energy of the pair [b] at which the compound system has the same energy: [ra] and [rb]
    are the mass ratios of the two pairs *)
Definition switched_energy (ra rb qb energy : R) : R := ((ra * energy + qb) / rb)%re.
(** Resonance energies are counted like energies, and squares of widths are energies *)
Definition switched_resonance (ra rb qb : R) (r : resonance) : resonance :=
  Resonance (switched_energy ra rb qb (rs_energy r)) [seq (sqrt (ra / rb) * x)%re | x <- rs_widths r]
    (sqrt (ra / rb) * rs_eliminated r)%re.

(** Channels with the incident pair [a], made by the constructor, with constant radii; those of
    the pair [a] have no Q value and those of the pair [b] the Q value [qb] *)
Record entrance (a b : particlePair) (qb : R) (channels : seq channel) : Prop := Entrance
  { en_made : forall c, List.In c channels -> exists t pair q numbers rad boundary,
      c = makeChannel t a pair (pp_id pair) q numbers rad boundary /\
      (exists x y z, rad = mkRadii (Fixed x) (Fixed y) (Fixed z)) /\
      (pp_id pair = pp_id a -> pair = a /\ q = 0%re) /\ (pp_id pair = pp_id b -> pair = b /\ q = qb);
    en_different : pp_id a <> pp_id b;
    en_capture : pp_id a <> "capture"%string /\ pp_id b <> "capture"%string }.

(** The pair: mass ratio, reduced mass, spins *)
Record pair_numbers (p : particlePair) (ratio mu : R) : Prop := PairNumbers
  { pn_ratio : pp_ratio p = Some ratio; pn_ratio_pos : (0 < ratio)%re;
    pn_mu : pp_reduced p = Some mu; pn_mu_pos : (0 < mu)%re;
    pn_spins : Z.le Z0 (p_spin (pp_particle p)) /\ Z.le Z0 (p_spin (pp_residual p)) }.
(** (2 i + 1)(2 I + 1), the spins being stored doubled *)
Definition multiplicity (p : particlePair) : R :=
  ((IZR (p_spin (pp_particle p)) + 1) * (IZR (p_spin (pp_residual p)) + 1))%re.
Definition empty_map : reaction_map := fun _ => None.
