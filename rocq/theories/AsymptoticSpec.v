(** The asymptotic expansion of the irregular Coulomb function for l = 0 at large rho: the real part of
    exp (i theta) sum_k c_k / rho^k with theta = rho - eta ln (2 rho) + sigma_0, where c_0 = 1 and
    2 (k + 1) c_(k+1) = ((2 k + 1) eta + i (eta^2 - k (k + 1))) c_k. *)
From Coq Require Import ZArith Reals.
From Coquelicot Require Import Coquelicot.
Open Scope R_scope.

Definition multiplier (eta : R) (k : nat) : R * R :=
  ((2 * INR k + 1) * eta / (2 * (INR k + 1)), (eta ^ 2 - INR k * (INR k + 1)) / (2 * (INR k + 1))).
Fixpoint expansion (eta : R) (k : nat) : R * R :=
  match k with
  | O => (1, 0)
  | S k => let (a, b) := multiplier eta k in let (s, t) := expansion eta k in (a * s - b * t, a * t + b * s)
  end.
Definition theta (eta sigma rho : R) : R := rho - eta * ln (2 * rho) + sigma.
(** Real part of exp (i angle) times a complex number *)
Definition turned (angle : R) (c : R * R) : R := fst c * cos angle - snd c * sin angle.
(** The first N + 1 terms at rho, with the phase of [angle] *)
Definition terms (eta : R) (N : nat) (rho angle : R) : R := sum_f_R0 (fun k => turned angle (expansion eta k) / rho ^ k) N.
Definition wave (eta sigma : R) (N : nat) (rho : R) : R := terms eta N rho (theta eta sigma rho).
(** i c *)
Definition times_i (c : R * R) : R * R := (- snd c, fst c).
(** The slope of [wave] if the phase were that of [angle] *)
Definition slopes (eta : R) (N : nat) (rho angle : R) : R :=
  sum_f_R0 (fun k => (1 - eta / rho) * turned angle (times_i (expansion eta k)) / rho ^ k - INR k * turned angle (expansion eta k) / rho ^ S k) N.
(** What the sum fails the equation by: the term after the last *)
Definition remainder (eta sigma : R) (N : nat) (rho : R) : R :=
  2 * (INR N + 1) * turned (theta eta sigma rho) (times_i (expansion eta (S N))) / rho ^ (N + 2).
(** The modulus of term k + 1 is at most that of term k *)
Definition shrinking (eta rho : R) (k : nat) : Prop :=
  (fst (multiplier eta k)) ^ 2 + (snd (multiplier eta k)) ^ 2 <= rho ^ 2.
(** The real part of the next term is that of this one to sixteen digits *)
Definition repeating (eta rho : R) (k : nat) : Prop :=
  Rabs (fst (expansion eta k) / rho ^ k - fst (expansion eta (S k)) / rho ^ S k) < / 10 ^ 16 * Rabs (fst (expansion eta k) / rho ^ k).
(** Where the sum ends *)
Definition last_term (eta rho : R) (N : nat) : Prop :=
  (forall k, (k < N)%nat -> shrinking eta rho k) /\ (N <= 100)%nat /\ (N = 100%nat \/ ~ shrinking eta rho N \/ repeating eta rho N).
(** The Wronskian of the sum and of the same with the imaginary part *)
Definition wronskian (eta : R) (N : nat) (rho : R) : R :=
  terms eta N rho 0 * slopes eta N rho (- PI / 2) - slopes eta N rho 0 * terms eta N rho (- PI / 2).
