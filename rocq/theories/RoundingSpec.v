(** The range of channel ratios for which rounding errors are bounded. *)
From Coq Require Import Reals.
From Flocq Require Import Core.Core IEEE754.BinarySingleNaN.
From Verif Require Import DoubleModel.
Open Scope R_scope.

Definition in_range (x : double) : Prop := is_finite x = true /\ bpow radix2 (-50) <= B2R x <= bpow radix2 50.
