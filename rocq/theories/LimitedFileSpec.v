(** The R-matrix of a spin group of the R-Matrix Limited format, read off the file: which of its
    channels are used, and the reduced widths of its resonances, row by row.  Without the
    model's helpers. *)
From Coq Require Import String List ZArith Reals Bool Sorted.
From Verif Require Import Outcome QuantumModel HardSphereModel KinematicsModel CoulombModel RMatrixModel ChannelModel
  EndfModel EndfSpec LimitedSpec.
Import ListNotations.
Open Scope R_scope.

Section File.
Variables (penetrability : channel -> R -> outcome (option R)) (ifg : Z).
Variables (inc : particlePair) (pairs : list particlePair) (es : list endf_pair) (g : endf_group).

(** The i-th channel has a width somewhere *)
Definition has_width (i : nat) : Prop := exists e w, given g i e w /\ w <> 0.
(** The channel that is taken into account by its width only *)
Definition eliminated_at (i : nat) : Prop := removed pairs es g i /\ has_width i.
(** The other channels with a width, and the incident channels *)
Definition used (i : nat) (c : channel) : Prop :=
  channel_at inc pairs es g i c /\ ~ eliminated_at i /\ (pp_id (c_pair c) = pp_id inc \/ has_width i).
(** The reduced width that belongs to a width of the file *)
Definition entry (c : channel) (e w gamma : R) : Prop :=
  (w = 0 -> gamma = 0) /\ (w <> 0 -> stored penetrability ifg c e w gamma).
(** The resonance of one line: [idx] are the positions of the used channels *)
Record line_of (idx : list nat) (channels : list channel) (e : R) (line : list R) (r : resonance) : Prop := mkLine
  { li_energy : rs_energy r = e;
    li_size : length (rs_widths r) = length channels;
    li_widths : forall k i c, nth_error idx k = Some i -> nth_error channels k = Some c ->
                  exists w gamma, nth_error line i = Some w /\ nth_error (rs_widths r) k = Some gamma /\ entry c e w gamma;
    li_eliminated : forall i c, eliminated_at i -> channel_at inc pairs es g i c ->
                      exists w, nth_error line i = Some w /\ entry c e w (rs_eliminated r);
    li_not_eliminated : (forall i, ~ eliminated_at i) -> rs_eliminated r = 0 }.
(** The used channels in the order of the file, and a resonance for every line *)
Definition tabulated (channels : list channel) (rs : list resonance) : Prop :=
  exists idx, StronglySorted lt idx /\ Forall2 used idx channels /\ (forall i c, used i c -> In i idx) /\
    (eg_NRS g = 0%nat -> rs = []) /\
    (eg_NRS g <> 0%nat -> Forall2 (fun l r => line_of idx channels (fst l) (snd l) r) (combine (eg_ER g) (eg_GAM g)) rs).
(** The channels of the incident pair and of the pairs with widths exist at all *)
Definition no_channel : Prop := forall i c, ~ used i c.
End File.
