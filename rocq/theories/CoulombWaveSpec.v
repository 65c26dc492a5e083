(** What the Coulomb wave functions have to do. *)
From Coq Require Import String List ZArith Reals.
From Coquelicot Require Import Coquelicot.
From Verif Require Import Outcome CoulombWaveModel.
Import ListNotations.

(** * In any arithmetic *)
(** The check: the Wronskian F' G - G' F is not further than 1e-6 from one; for doubles, this
    lets numbers through that are not numbers *)
Definition checked {A : arithmetic} (gf dgf : A * A) : Prop :=
  lt (dec 1 (-6)) (fabs (snd dgf * fst gf - fst dgf * snd gf - #1))%num = false.
(** The two ways in which a number of steps does not fit *)
Definition overflow (why : string) : Prop :=
  why = "conversion to int out of range"%string \/ why = "signed integer overflow"%string.

(** * In exact arithmetic *)
Open Scope R_scope.
(** The recurrence relations of the Coulomb functions (Abramowitz and Stegun 14.2) *)
Definition cR (eta : R) (l : nat) : R := sqrt (INR l * INR l + eta * eta) / INR l.
Definition cS (eta rho : R) (l : nat) : R := INR l / rho + eta / INR l.
Definition solves (eta rho : R) (X : nat -> R) : Prop :=
  forall l, (1 <= l)%nat ->
    cR eta (S l) * X (S l) = (cS eta rho l + cS eta rho (S l)) * X l - cR eta l * X (pred l).
(** The derivative with respect to rho *)
Definition derived (eta rho : R) (X : nat -> R) (l : nat) : R := cS eta rho (S l) * X l - cR eta (S l) * X (S l).

(** * The starting values *)
(** How far the slope that the Riccati expansion gives below the turning point is from the
    derivative of the value, relative to the value: with t = rho / (2 eta), this times (2 eta)^-6 *)
Definition slip (t : R) : R :=
  2 * (- 30720 * t ^ 4 + 114944 * t ^ 3 - 57792 * t ^ 2 + 16632 * t - 2079) / (65536 * t ^ 3 * (1 - t) ^ 7 * sqrt (t * (1 - t) ^ 3)).
(** The same above the turning point, with x = 2 eta / rho: two slips *)
Definition slipped (x : R) : R := 2000000 / 10321920 * x ^ 3 * (4 + 7 / 2 * x) / sqrt (1 - x) ^ 17.
Definition tail (z x : R) : R :=
  let w := z ^ 2 * x ^ 2 / (1 - x) ^ 3 in
  w * (- 3 * (x ^ 2 - 4 * x + 8) / 64)
  + w ^ 2 * (3 * (39 * x ^ 4 - 260 * x ^ 3 + 728 * x ^ 2 - 832 * x + 2560) / 4096)
  + w ^ 3 * (- 3 * (1899 * x ^ 6 - 17724 * x ^ 5 + 73432 * x ^ 4 - 177280 * x ^ 3 + 308480 * x ^ 2 + 196608 * x + 860160) / 131072).
(** The logarithmic derivative of a solution of p'' = (2 eta / rho - 1) p, expanded in powers of
    1 / (2 eta) with coefficients S 0, S 1, ... that depend on t: the equation, order by order *)
Definition hierarchy (S : nat -> R -> R) (n : nat) (t : R) : Prop :=
  match n with
  | O => S O t * S O t = (1 - t) / t
  | Datatypes.S m => is_derive (S m) t (- sum_f_R0 (fun i => S i t * S (n - i)%nat t) n)
  end.
