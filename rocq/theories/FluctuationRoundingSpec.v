(** The widths for which the rounding errors of the fluctuation integrals are bounded. *)
From Coq Require Import Reals.
From Flocq Require Import Core.Core IEEE754.BinarySingleNaN.
From Verif Require Import DoubleModel.
Open Scope R_scope.

Definition ordinary (x : double) : Prop := is_finite x = true /\ bpow radix2 (-200) <= B2R x <= bpow radix2 200.
(** A width that may be zero *)
Definition ordinary_or_zero (x : double) : Prop := (is_finite x = true /\ B2R x = 0) \/ ordinary x.
(** x is v up to a relative error of 1.2 10^-13 *)
Definition rounded (x : double) (v : R) : Prop := is_finite x = true /\ Rabs (B2R x - v) <= 1.2e-13 * v.
