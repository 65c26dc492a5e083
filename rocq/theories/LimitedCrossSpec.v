(** The cross sections of an R-Matrix Limited file: what each spin group of the file adds. *)
From Coq Require Import Reals ZArith String.
From mathcomp Require Import all_ssreflect all_algebra.
From Verif Require Import Outcome KinematicsModel CoulombModel Cplx RMatrixModel RMatrixSpec ChannelModel SpinGroupModel SpinGroupSpec
  EndfModel EndfSpec LimitedSpec LimitedFileSpec.
Set Implicit Arguments.
Unset Strict Implicit.
Unset Printing Implicit Defensive.

Section Cross.
Variables (hbar epsilon0 : R) (cwf : nat -> R -> R -> outcome coulomb) (b : boundary_option) (energy : R).
Variables (f : endf_limited) (pairs : seq particlePair) (inc : particlePair).
Notation pen := (channelPenetrability hbar epsilon0 cwf).
(** [x] is what the collision matrix gives that belongs to the lines of the spin group: the R
    matrix is made of the reduced widths of the lines, for the used channels in the order of
    the file, and the first factor belongs to an incident channel.  A group without a used channel gives nothing. *)
Definition group_gives (g : endf_group) (x : reactionID -> R) : Prop :=
  (exists G rs vs A factor, tabulated pen (el_IFG f) inc pairs (el_pairs f) g (g_channels G) rs /\
     List.In (first_incident G) (g_channels G) /\ isIncidentChannel (first_incident G) /\
     @evaluated hbar epsilon0 cwf b rs G energy vs A factor /\ forall k, x k = contribution vs A factor k) \/
  (no_channel inc pairs (el_pairs f) g /\ forall k, x k = 0%re).
(** A key some channel of the file, or capture, writes to *)
Definition some_reaction (k : reactionID) : Prop :=
  exists g i c, List.In g (el_groups f) /\ used inc pairs (el_pairs f) g i c /\
    (k = c_reaction c \/ k = Transfer (pp_id inc) "capture"%string).
(** What the evaluation needs: channels without charge that can be evaluated at the energy, and
    at the energy of a line with a width also a capture width in that line *)
Record evaluable : Prop := mkEvaluable
  { ev_channels : forall g i c, List.In g (el_groups f) -> used inc pairs (el_pairs f) g i c -> tame energy c;
    ev_factor : forall g i c, List.In g (el_groups f) -> used inc pairs (el_pairs f) g i c -> pp_id (c_pair c) = pp_id inc ->
                  exists x, channelFactor hbar c energy = Some x;
    ev_regular : forall g i w, List.In g (el_groups f) -> given g i energy w -> w <> 0%re ->
                   exists i' c' w', eliminated_at pairs (el_pairs f) g i' /\ channel_at inc pairs (el_pairs f) g i' c' /\
                     given g i' energy w' /\ w' <> 0%re }.
(** The boundary condition that belongs to the flag of the first pair *)
Definition flagged (x : endf_pair) : Prop := (ep_SHF x = Z0 -> b = ShiftFactor) /\ (ep_SHF x <> Z0 -> b = Constant).
End Cross.
