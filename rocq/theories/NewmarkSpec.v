(** Integration of the Coulomb equation G'' = (2 eta / rho - 1) G by Newmark's method. *)
From Coq Require Import ZArith Reals.
From Coquelicot Require Import Coquelicot.
Open Scope R_scope.

(** G'' of a value at x *)
Definition acceleration (eta x g : R) : R := (2 * eta / x - 1) * g.
(** [used] is the acceleration [true_one] to ten digits *)
Definition ten_digits (used true_one : R) : Prop :=
  (true_one <> 0 -> Rabs (used - true_one) <= / 10000000000 * Rabs true_one) /\
  (true_one = 0 -> Rabs used <= / 10000000000).
(** One step of length h with parameter beta = 1/10 from the value g0 with slope f0 to g1 with
    slope f1; a0 is the acceleration before it *)
Definition newmark (h g0 f0 a0 g1 f1 a1 : R) : Prop :=
  f1 = f0 + h / 2 * (a0 + a1) /\ g1 = g0 + h * f0 + h ^ 2 * ((1 / 2 - 1 / 10) * a0 + 1 / 10 * a1).
(** n steps from the position x, value p0 and slope p1 with positions x - i h *)
Record integration (eta x h p0 p1 : R) (n : nat) (g f : nat -> R) : Prop := Integration
  { in_start : g O = p0 /\ f O = p1;
    in_step : forall i, (i < n)%nat -> exists a1,
      ten_digits a1 (acceleration eta (x - INR (S i) * h) (g (S i))) /\
      newmark (- h) (g i) (f i) (acceleration eta (x - INR i * h) (g i)) (g (S i)) (f (S i)) a1 }.
(** The value predicted from the acceleration before the step alone *)
Definition predicted (h g0 f0 a0 : R) : R := g0 + h * f0 + h ^ 2 * ((1 / 2 - 1 / 10) * a0).
(** k < n steps, after which the acceleration all but vanishes: at the predicted value it is less than
    1e-80 of the one before *)
Definition vanishing (eta x h p0 p1 : R) (n : nat) : Prop := exists k g f, (k < n)%nat /\ integration eta x h p0 p1 k g f /\
  let a0 := acceleration eta (x - INR k * h) (g k) in let x1 := x - INR (S k) * h in
  a0 <> 0 /\ 2 * eta / x1 <> 1 /\ Rabs (acceleration eta x1 (predicted (- h) (g k) (f k) a0)) <= / 10 ^ 80 * Rabs a0.
(** A solution of the equation between two positions, with its slope *)
Record solution (eta lo hi : R) (u u1 : R -> R) : Prop := Solution
  { so_slope : forall x, lo <= x <= hi -> is_derive u x (u1 x);
    so_equation : forall x, lo <= x <= hi -> is_derive u1 x (acceleration eta x (u x)) }.
(** Bounds of the equation and of a solution *)
Record bounded (eta lo hi W U : R) (u u1 : R -> R) : Prop := Bounded
  { bo_coefficient : forall x, lo <= x <= hi -> Rabs (2 * eta / x - 1) <= W /\ Rabs (2 * eta / x ^ 2) <= W /\ Rabs (4 * eta / x ^ 3) <= W;
    bo_solution : forall x, lo <= x <= hi -> Rabs (u x) <= U /\ Rabs (u1 x) <= U }.
