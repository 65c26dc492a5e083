(** How far the values of an integration towards the origin may be from a solution of the Coulomb equation. *)
From Coq Require Import Reals.
From Verif Require Import NewmarkSpec.
Open Scope R_scope.

(** The size of an error of value and slope *)
Definition gap (d e : R) : R := sqrt (d ^ 2 + e ^ 2).
(** How much an error may grow from [hi] to [lo] because the equation is not that of an oscillator *)
Definition growth (eta lo hi : R) : R := Rpower (hi / lo) eta.
(** Bounds between [lo] and [hi]: of the coefficient 2 eta / x - 1, and of a solution and its slope *)
Record limits (eta lo hi W U : R) (u u1 : R -> R) : Prop := Limits
  { li_order : 0 < lo /\ 0 <= eta;
    li_coefficient : 1 <= W /\ 2 * eta / lo <= 1 + W;
    li_solution : forall x, lo <= x <= hi -> Rabs (u x) <= U /\ Rabs (u1 x) <= U }.
(** The growth because of the length h of the steps, per unit of distance *)
Definition step_growth (eta lo W h : R) : R := h * (2 * W ^ 2 + 2 * eta / lo ^ 2) + / 10 ^ 9 * W.
(** The error made on the way, per unit of distance: ten digits in the acceleration and second order in h *)
Definition step_loss (eta lo W U h : R) : R :=
  / 10 ^ 10 * (1 + W * U) + h ^ 2 * (3 / 10 * ((2 * eta / lo ^ 2 + W) * U) + 1 / 10 * ((4 * eta / lo ^ 3 + 2 * (2 * eta / lo ^ 2) + W ^ 2) * U)).
(** The bound of the error at [lo] when that at [hi] is [start] *)
Definition inward_error (eta lo hi W U h start : R) : R :=
  growth eta lo hi * exp ((hi - lo) * step_growth eta lo W h) * (start + (hi - lo) * step_loss eta lo W U h).
(** From [ra] to [rho] the integration stops on the way because the acceleration all but vanishes *)
Definition gave_up (eta rho ra p0 p1 : R) : Prop :=
  exists n h, 0 < h <= 1 / 100 /\ ra - INR n * h = rho /\ vanishing eta ra h p0 p1 n.
