(** Unresolved resonance cross sections for numbers, and the range of numbers for which their rounding
    errors are bounded. *)
From Coq Require Import List ZArith Reals.
From Flocq Require Import Core.Core IEEE754.BinarySingleNaN.
From Verif Require Import UnresolvedModel UnresolvedSpec FluctuationSpec DoubleModel BreitWignerRoundingSpec UnresolvedRoundingModel.
Open Scope R_scope.

Definition zero_or_within (n : Z) (x : double) : Prop := is_zero x \/ positive_within n x.
Definition usable_parameters (x : parameters64) (d : data nat) : Prop :=
  positive_within 40 (a_spacing x) /\ positive_within 40 (a_elastic x) /\ zero_or_within 40 (a_capture x) /\
  zero_or_within 40 (a_fission x) /\ zero_or_within 40 (a_competition x) /\
  (1 <= d_elastic d <= 4)%nat /\ (B2R (a_fission x) <> 0 -> (d_fission d <= 4)%nat) /\
  (B2R (a_competition x) <> 0 -> (d_competition d <= 4)%nat).
Definition usable_channel (pi k a sf energy p sinphi : double) : Prop :=
  positive_within 10 pi /\ positive_within 30 k /\ positive_within 20 a /\ positive_within 20 sf /\
  positive_within 40 energy /\ positive_within 80 p /\ within 80 sinphi.

(** The average neutron width: the reduced width, the square root of the energy, the degrees of freedom
    and the penetrability divided by k a *)
Definition average_width (k a energy p : double) (x : parameters64) (d : data nat) : R :=
  B2R (a_elastic x) * sqrt (B2R energy) * (INR (d_elastic d) * B2R p / (B2R k * B2R a)).
(** 2 pi^2 / k^2 times the statistical factor times the strength function *)
Definition formation64 (pi k a sf energy p : double) (x : parameters64) (d : data nat) : R :=
  2 * B2R pi * B2R pi / (B2R k * B2R k) * B2R sf / B2R (a_spacing x) * average_width k a energy p x d.

(** The results for given shares of the elastic, capture and fission reactions, up to a relative error
    and an error of the shares.  The error of the elastic cross section is relative to its terms. *)
Definition cross_sections (error share_error : R) (pi k a sf energy p sinphi : double) (x : parameters64) (d : data nat)
    (e c f : R) (result : double * double * option double) : Prop :=
  let F := formation64 pi k a sf energy p x d in
  let s2 := B2R sinphi * B2R sinphi in
  let '(el, ca, fi) := result in
  (is_finite el = true /\ Rabs (B2R el - F * (e - 2 * s2)) <= F * (error * (e + 2 * s2) + share_error)) /\
  (is_finite ca = true /\ Rabs (B2R ca - F * c) <= F * (error * c + share_error)) /\
  match fi with
  | Some fi => is_finite fi = true /\ Rabs (B2R fi - F * f) <= F * (error * f + share_error)
  | None => B2R (a_fission x) = 0
  end.
