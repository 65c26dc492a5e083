(** What the T matrix of a compound system has to hold. *)
From Coq Require Import Reals Ascii String List.
From mathcomp Require Import all_ssreflect all_algebra.
From Verif Require Import Outcome QuantumModel QuantumSpec KinematicsModel CoulombModel Cplx RMatrixModel RMatrixSpec ChannelModel SpinGroupModel SpinGroupSpec.
Set Implicit Arguments.
Unset Strict Implicit.
Unset Printing Implicit Defensive.
Local Open Scope ring_scope.

(** no channel identifier occurs in two groups *)
Definition apart (gs : seq group) : Prop :=
  ForallOrdPairs (fun g h => forall c d, In c (g_channels g) -> In d (g_channels h) -> c_id c <> c_id d) gs.
(** an identifier as the constructors of Channel make it *)
Definition default_id (c : channel) : Prop :=
  exists name, no_brace name /\ valid_qnum (c_numbers c) /\ c_id c = makeChannelID name (c_numbers c).

Section Ready.
Variables (hbar epsilon0 : R) (cwf : nat -> R -> R -> outcome coulomb) (b : boundary_option) (energy : R).
(** a group that can be evaluated at this energy *)
Definition ready (g : group) : Prop := exists channels rs vs factor, constructed channels rs g /\
  groupValues hbar epsilon0 cwf b g energy = Ok (Some vs) /\ channelFactor hbar (first_incident g) energy = Some factor /\
  physical (gsize g) b vs /\ regular energy rs /\ (forall c, In c channels -> arrow_free (c_id c)).
(** the key of an element *)
Definition key (g : group) (c j : 'I_(gsize g)) : string := (c_id (chan c) ++ "->" ++ c_id (chan j))%string.
(** a map that holds the T matrix of a group *)
Definition holds (g : group) (t : element_map) : Prop := exists vs A factor,
  @evaluated hbar epsilon0 cwf b (t_resonances (g_table g)) g energy vs A factor /\ forall c j, t (key c j) = Some (T_spec vs A c j).
End Ready.

(** a reaction in which nothing is captured or scattered elastically *)
Definition transfer_only (g : group) (k : reactionID) : Prop :=
  k <> capture_id g /\ forall j : 'I_(gsize g), c_reaction (chan j) = k -> isIncidentChannel (chan j) = false.
(** its cross section as read from the T matrix: 4 |T|^2 over the channels *)
Definition from_T (hbar energy : R) (t : element_map) (g : group) (k : reactionID) : R :=
  (odflt 0 (channelFactor hbar (first_incident g) energy) *
    \big[Rplus/0]_(c : 'I_(gsize g) | isIncidentChannel (chan c))
      \big[Rplus/0]_(j | c_reaction (chan j) == k) (4 * norm2 (odflt 0%R (t (key c j)))))%re.
