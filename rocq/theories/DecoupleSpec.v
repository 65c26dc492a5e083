(** Some of the channels of a spin group by themselves. *)
From Coq Require Import Reals.
From mathcomp Require Import all_ssreflect all_algebra.
From Verif Require Import Cplx RMatrixModel.
Set Implicit Arguments.
Unset Strict Implicit.
Unset Printing Implicit Defensive.

(** The values and the resonances of the channels with the indices [idx] *)
Definition only (idx : seq nat) (vs : seq values) : seq values := [seq nth no_values vs i | i <- idx].
Definition only_width (idx : seq nat) (r : resonance) : resonance :=
  Resonance (rs_energy r) [seq nth 0%re (rs_widths r) i | i <- idx] (rs_eliminated r).
(** No resonance has a width both in a channel of [idx] and in another one *)
Definition separate (idx : seq nat) (table : seq resonance) : Prop :=
  forall r i j, List.In r table -> i \in idx -> j \notin idx ->
    nth 0%re (rs_widths r) i = 0%re \/ nth 0%re (rs_widths r) j = 0%re.
