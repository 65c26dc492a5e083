(** Rewriting the data of a spin group in ways that describe the same nucleus. *)
From Coq Require Import Reals Permutation.
From mathcomp Require Import all_ssreflect all_algebra.
From Verif Require Import Outcome Cplx RMatrixModel ChannelModel SpinGroupModel SpinGroupSpec.
Set Implicit Arguments.
Unset Strict Implicit.
Unset Printing Implicit Defensive.

(** The same resonance: only gamma_i gamma_j and the square of the eliminated width are seen. *)
Definition same_resonance (r r' : resonance) : Prop :=
  rs_energy r = rs_energy r' /\ Rabs (rs_eliminated r) = Rabs (rs_eliminated r') /\
  (rs_widths r' = rs_widths r \/ rs_widths r' = [seq (- x)%re | x <- rs_widths r]).
(** The same resonances, in any order *)
Definition same_resonances (rs rs' : seq resonance) : Prop :=
  exists rs'', Permutation rs rs'' /\ List.Forall2 same_resonance rs'' rs'.

(** A resonance with its channels in the order [idx], and with the sign of a channel changed
    wherever [minus] holds *)
Definition reordered (idx : seq nat) (minus : nat -> bool) (r : resonance) : resonance :=
  Resonance (rs_energy r)
    [seq (if minus i then - nth 0 (rs_widths r) i else nth 0 (rs_widths r) i)%re | i <- idx] (rs_eliminated r).

(** Channels of the same pair with the same Q value, so that it does not matter which of them
    the wave number and the spin factor are taken from *)
Definition one_entrance (channels : seq channel) : Prop :=
  forall c c', List.In c channels -> List.In c' channels -> isIncidentChannel c -> isIncidentChannel c' ->
    c_incident c = c_incident c' /\ c_pair c = c_pair c' /\ c_q c = c_q c'.

(** what a caller sees of a call *)
Definition visible (A B : Type) (o : outcome (option (A * B))) : outcome (option B) :=
  Outcome.omap (ssrfun.omap snd) o.
