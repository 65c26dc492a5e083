(** Specification of the hard-sphere functions, independent of the code: the regular and
    irregular free waves of the radial Schroedinger equation. *)
From Coq Require Import List Reals.
Import ListNotations.
Open Scope R_scope.

(** The pair (u_{l-1}, u_l) of a solution family of the radial equation, from l = 0 and the
    three term recursion u_{l+1} = (2l+1)/rho u_l - u_{l-1}. *)
Fixpoint wave (u_minus u_0 : R -> R) (l : nat) (rho : R) : R * R :=
  match l with
  | O => (u_minus rho, u_0 rho)
  | S n => let '(a, b) := wave u_minus u_0 n rho in (b, (2 * INR n + 1) / rho * b - a)
  end.

(** Regular wave: F_0 = sin; irregular wave: G_0 = cos. *)
Definition waveF (l : nat) (rho : R) : R := snd (wave cos sin l rho).
Definition waveG (l : nat) (rho : R) : R := snd (wave (fun x => - sin x) cos l rho).
(** F_{l-1} and G_{l-1} *)
Definition waveF' (l : nat) (rho : R) : R := fst (wave cos sin l rho).
Definition waveG' (l : nat) (rho : R) : R := fst (wave (fun x => - sin x) cos l rho).

(** Derivatives (proved to be such in HardSphereProofs). *)
Definition dF (l : nat) (rho : R) : R := waveF' l rho - INR l / rho * waveF l rho.
Definition dG (l : nat) (rho : R) : R := waveG' l rho - INR l / rho * waveG l rho.

(** Squared amplitude, penetrability and shift factor of the outgoing wave G + iF. *)
Definition amplitude2 (l : nat) (rho : R) : R := waveF l rho ^ 2 + waveG l rho ^ 2.
Definition P_spec (l : nat) (rho : R) : R := rho / amplitude2 l rho.
Definition S_spec (l : nat) (rho : R) : R :=
  rho * (waveF l rho * dF l rho + waveG l rho * dG l rho) / amplitude2 l rho.

(** [phi] is the argument of G + iF up to a multiple of pi (a sign of the wave). *)
Definition is_phase (l : nat) (rho phi : R) : Prop :=
  exists sign, (sign = 1 \/ sign = -1) /\
    waveG l rho = sign * sqrt (amplitude2 l rho) * cos phi /\
    waveF l rho = sign * sqrt (amplitude2 l rho) * sin phi.

(** c_0 + c_1 x + c_2 x^2 + ... *)
Fixpoint polynomial (coefficients : list R) (x : R) : R :=
  match coefficients with
  | [] => 0
  | c :: r => c + x * polynomial r x
  end.

(** sum_k c_k x^k with explicit powers *)
Definition power_sum (coefficients : list R) (x : R) : R :=
  fold_right Rplus 0
    (map (fun k => nth k coefficients 0 * x ^ k) (seq 0 (length coefficients))).
