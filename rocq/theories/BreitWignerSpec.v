(** Textbook Breit-Wigner theory, written with the collision matrix, independent of the code.
    The only things taken from the model are the records of the ENDF input. *)
From Coq Require Import List ZArith Reals Bool.
From Verif Require Import QuantumSpec HardSphereSpec Cplx ChannelModel BreitWignerModel.
Import ListNotations.
Open Scope R_scope.

Definition csum (l : list cx) : cx := fold_right cx_add cx_zero l.
Definition cdiv (x y : cx) : cx := cx_mul x (cx_inv y).

(** A level as seen at the energy of the evaluation: shifted resonance energy, neutron width,
    capture and fission widths, total width *)
Record level : Type := Level { w_E : R; w_n : R; w_c : R; w_f : R; w_T : R }.

(** e^{-2 i phi} of the hard sphere: (G - iF) / (G + iF) *)
Definition hard_sphere_U (l : nat) (rho : R) : cx :=
  cdiv (Cx (waveG l rho) (- waveF l rho)) (Cx (waveG l rho) (waveF l rho)).

(** E' - E - i Gamma / 2 *)
Definition pole (E : R) (v : level) : cx := Cx (w_E v - E) (- (w_T v / 2)).

(** U = e^{-2 i phi} ( 1 + sum over the levels of i Gamma_n / (E' - E - i Gamma / 2) ) *)
Definition collision (U0 : cx) (E : R) (vs : list level) : cx :=
  cx_mul U0 (cx_add cx_one
    (csum (map (fun v => cdiv (cx_mul ci (rcx (w_n v))) (pole E v)) vs))).

(** |1 - U|^2, the elastic cross section in units of pi / k^2 g *)
Definition scattered (U : cx) : R := norm2 (cx_add cx_one (cx_opp U)).
(** Gamma_n Gamma_x / |E' - E - i Gamma / 2|^2 *)
Definition reaction (E x : R) (v : level) : R := w_n v * x / norm2 (pole E v).

(** The cross section of a set of levels of different groups when each level interferes with
    the potential scattering only, for one l, in units of pi / k^2; [g] and [v] give the
    statistical factor and the level of a resonance *)
Section OneL.
Context {A : Type}.
Variables (l : nat) (U0 : cx) (E : R) (g : A -> R) (v : A -> level).

Definition SL_elastic (rs : list A) : R :=
  (2 * INR l + 1) * scattered U0
  + Rsum (map (fun r => g r * (scattered (collision U0 E [v r]) - scattered U0)) rs).
Definition capture_sum (rs : list A) : R := Rsum (map (fun r => g r * reaction E (w_c (v r)) (v r)) rs).
Definition fission_sum (rs : list A) : R := Rsum (map (fun r => g r * reaction E (w_f (v r)) (v r)) rs).

(** All levels of one J interfere: sum over the J of g_J |1 - U_J|^2, and the J that have no
    resonance contribute their potential scattering, to a total weight 2l+1 *)
Variables (I : Z) (J : A -> Z).
Definition Js (rs : list A) : list Z := nodup Z.eq_dec (map J rs).
Definition of_J (j : Z) (rs : list A) : list A := filter (fun r => Z.eqb (J r) j) rs.
Definition ML_elastic (rs : list A) : R :=
  Rsum (map (fun j => g_neutron I j * scattered (collision U0 E (map v (of_J j rs)))) (Js rs))
  + (2 * INR l + 1 - Rsum (map (g_neutron I) (Js rs))) * scattered U0.
End OneL.

(** The interference of two levels *)
Definition interference (E : R) (v w : level) : R :=
  2 * (w_n v * w_n w) * ((E - w_E v) * (E - w_E w) + w_T v / 2 * (w_T w / 2))
  / (norm2 (pole E v) * norm2 (pole E w)).
Fixpoint pair_sum {A} (f : A -> A -> R) (l : list A) : R :=
  match l with [] => 0 | x :: r => Rsum (map (f x) r) + pair_sum f r end.

(** From ENDF parameters.  [k] and [a]: wave number and channel radius as functions of the
    energy; [q]: the energy added to find the penetrability of the competitive channel. *)
Section File.
Variables (k a : R -> R) (E : R) (q : bw_lstate -> R).
Definition P_at (l : nat) (e : R) : R := P_spec l (k e * a e).
Definition S_at (l : nat) (e : R) : R := S_spec l (k e * a e).
(** Gamma_n(E) = Gamma_n P(E) / P(Er), E' = Er + Gamma_n (S(Er) - S(E)) / (2 P(Er)) *)
Definition level_of (ls : bw_lstate) (x : bw_line) : level :=
  let l := ls_L ls in
  let n := ln_GN x * P_at l E / P_at l (ln_ER x) in
  let c := if ls_LRX ls
           then ln_GX x * P_at l (E + q ls) / P_at l (ln_ER x + q ls) else 0 in
  Level (ln_ER x + ln_GN x * (S_at l (ln_ER x) - S_at l E) / (2 * P_at l (ln_ER x)))
        n (ln_GG x) (ln_GF x) (n + ln_GG x + ln_GF x + c).

Variables (ahat : R) (I : Z).
Definition abs_J (x : bw_line) : Z := Z.abs (ln_AJ x).
Definition g_of (x : bw_line) : R := g_neutron I (abs_J x).
Definition U0_of (ls : bw_lstate) : cx := hard_sphere_U (ls_L ls) (k E * ahat).
(** pi / k^2, with the value of pi that the code uses *)
Definition barns : R := pi_value / (k E * k E).
Definition SLBW_elastic (lss : list bw_lstate) : R :=
  barns * Rsum (map (fun ls =>
    SL_elastic (ls_L ls) (U0_of ls) E g_of (level_of ls) (ls_lines ls)) lss).
Definition MLBW_elastic (lss : list bw_lstate) : R :=
  barns * Rsum (map (fun ls =>
    ML_elastic (ls_L ls) (U0_of ls) E (level_of ls) I abs_J (ls_lines ls)) lss).
Definition BW_capture (lss : list bw_lstate) : R :=
  barns * Rsum (map (fun ls => capture_sum E g_of (level_of ls) (ls_lines ls)) lss).
Definition BW_fission (lss : list bw_lstate) : R :=
  barns * Rsum (map (fun ls => fission_sum E g_of (level_of ls) (ls_lines ls)) lss).
End File.
