(** The Breit-Wigner formulas for numbers, and the range of numbers for which their rounding errors
    are bounded. *)
From Coq Require Import List ZArith Reals.
From Flocq Require Import Core.Core IEEE754.BinarySingleNaN.
From Verif Require Import DoubleModel BreitWignerRoundingModel.
Import ListNotations.
Open Scope R_scope.

Definition positive_within (n : Z) (x : double) : Prop := is_finite x = true /\ bpow radix2 (- n) <= B2R x <= bpow radix2 n.
Definition is_zero (x : double) : Prop := is_finite x = true /\ B2R x = 0.
Definition within (n : Z) (x : double) : Prop := is_zero x \/ (is_finite x = true /\ bpow radix2 (- n) <= Rabs (B2R x) <= bpow radix2 n).

(** A resonance whose widths are 2^w at most, not all zero and not tiny, the penetrabilities 2^b at most
    and not tiny *)
Definition usable (w b : Z) (g : given64) : Prop :=
  within 40 (g_energy g) /\ (is_zero (g_elastic g) \/ positive_within w (g_elastic g)) /\
  (is_zero (g_capture g) \/ positive_within w (g_capture g)) /\ (is_zero (g_fission g) \/ positive_within w (g_fission g)) /\
  (is_zero (g_competition g) \/ positive_within w (g_competition g)) /\
  B2R (g_elastic g) + B2R (g_capture g) + B2R (g_fission g) <> 0 /\
  positive_within b (g_P g) /\ positive_within b (g_Q g) /\ within 20 (g_S g).
(** The same for the energy and the quantities of the channel at that energy *)
Definition usable_energy (b : Z) (energy p q s : double) : Prop :=
  positive_within 40 energy /\ positive_within b p /\ (is_zero q \/ positive_within b q) /\ within 20 s.

(** The neutron width at the energy, the total width, by how much the level is displaced, and how far
    the energy is from the level *)
Definition neutron_width (p : double) (g : given64) : R := B2R p * (B2R (g_elastic g) / B2R (g_P g)).
Definition total_width (p q : double) (g : given64) : R :=
  neutron_width p g + B2R (g_capture g) + B2R (g_fission g) + B2R q * (B2R (g_competition g) / B2R (g_Q g)).
Definition displacement (s : double) (g : given64) : R := (B2R (g_S g) - B2R s) / 2 * (B2R (g_elastic g) / B2R (g_P g)).
Definition distance (energy s : double) (g : given64) : R := B2R energy - (B2R (g_energy g) + displacement s g).

(** The single-level formulas *)
Definition lorentz (G d : R) : R := d * d + / 4 * G * G.
Definition bw_reaction (w e G d : R) : R := w * e / lorentz G d.
Definition bw_elastic (s1 s2 e G d : R) : R := e * (e - 2 * G * (s1 * s1) + 2 * d * s2) / lorentz G d.
(** The same with all terms positive *)
Definition bw_elastic_size (s1 s2 e G d : R) : R := e * (e + 2 * G * (s1 * s1) + 2 * Rabs d * Rabs s2) / lorentz G d.
(** The interference of two levels *)
Definition bw_interference (e G d e' G' d' : R) : R := 2 * e * e' * (d * d' + / 4 * G * G') / lorentz G d / lorentz G' d'.
Definition bw_interference_size (e G d e' G' d' : R) : R := 2 * e * e' * (Rabs d * Rabs d' + / 4 * G * G') / lorentz G d / lorentz G' d'.

(** d is the distance from the level up to roundings *)
Definition displaced (energy s : double) (g : given64) (d : R) : Prop :=
  Rabs (d - distance energy s g) <= 9 * bpow radix2 (-53) * (Rabs (B2R energy) + Rabs (B2R (g_energy g)) + Rabs (displacement s g)).

Fixpoint total_of {A} (f : A -> R) (l : list A) : R := match l with [] => 0 | x :: r => f x + total_of f r end.
(** The sum over all pairs, the later first *)
Fixpoint pairs_of {A} (f : A -> A -> R) (before l : list A) : R :=
  match l with [] => 0 | x :: r => total_of (f x) before + pairs_of f (before ++ [x]) r end.

(** pi / k^2 times the statistical factor *)
Definition bw_factor (pi k sf : double) : R := B2R pi / (B2R k * B2R k) * B2R sf.
(** The three results are the single-level cross sections of resonances at given distances, up to
    roundings: the reactions have a relative error, the error of the elastic cross section is
    relative to its terms. *)
Definition single_level (p q sinphi sintwophi pi k sf : double) (rs : list (given64 * R))
    (result : double * double * option double) : Prop :=
  let N := INR (length rs) in
  let f := bw_factor pi k sf in
  let over h := f * total_of (fun z => h (fst z) (neutron_width p (fst z)) (total_width p q (fst z)) (snd z)) rs in
  let elastic := over (fun _ => bw_elastic (B2R sinphi) (B2R sintwophi)) in
  let size := over (fun _ => bw_elastic_size (B2R sinphi) (B2R sintwophi)) in
  let capture := over (fun g => bw_reaction (B2R (g_capture g))) in
  let fission := over (fun g => bw_reaction (B2R (g_fission g))) in
  let '(el, ca, fi) := result in
  (is_finite el = true /\ Rabs (B2R el - elastic) <= 2 * (N + 50) * bpow radix2 (-53) * size) /\
  (is_finite ca = true /\ Rabs (B2R ca - capture) <= 2 * (N + 37) * bpow radix2 (-53) * capture) /\
  match fi with
  | Some fi => is_finite fi = true /\ Rabs (B2R fi - fission) <= 2 * (N + 37) * bpow radix2 (-53) * fission
  | None => fission = 0
  end.
(** The same for the interference of the resonances *)
Definition interference (p q pi k sf : double) (rs : list (given64 * R)) (result : double) : Prop :=
  let N := INR (length rs) in
  let f := bw_factor pi k sf in
  let over h := f * pairs_of (fun z z' => h (neutron_width p (fst z)) (total_width p q (fst z)) (snd z) (neutron_width p (fst z')) (total_width p q (fst z')) (snd z')) [] rs in
  is_finite result = true /\ Rabs (B2R result - over bw_interference) <= 2 * (N * N + 83) * bpow radix2 (-53) * over bw_interference_size.
