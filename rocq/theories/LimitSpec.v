(** The limits that flux conservation sets to the cross sections of a spin group. *)
From Coq Require Import Reals.
From mathcomp Require Import all_ssreflect all_algebra.
From Verif Require Import Outcome Cplx KinematicsModel RMatrixModel ChannelModel SpinGroupModel SpinGroupSpec.
Set Implicit Arguments.
Unset Strict Implicit.
Unset Printing Implicit Defensive.

(** the reactions that leave the incident pair as it is *)
Definition scattering (g : group) (k : reactionID) : bool :=
  has (fun c => isIncidentChannel c && (c_reaction c == k)) (g_channels g).
(** what the map gained under one key, and over the keys for which [P] holds *)
Definition gain (m m' : reaction_map) (k : reactionID) : R := (odflt 0 (m' k) - odflt 0 (m k))%re.
Definition gain_over (P : reactionID -> bool) (g : group) (m m' : reaction_map) : R :=
  \big[Rplus/0%re]_(k <- undup (g_reactions g) | P k) gain m m' k.
(** how many incident channels there are *)
Definition entrances (g : group) : R := INR (seq.count isIncidentChannel (g_channels g)).
