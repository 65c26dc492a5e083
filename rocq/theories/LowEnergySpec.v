(** The cross sections of a Breit-Wigner file at low energies: a neutron is captured in
    proportion to the time it spends near the nucleus, 1/v, and is scattered with a scattering
    length.  Only the s waves count.  The only things taken from the model are the records of
    the ENDF input and its value of pi. *)
From Coq Require Import List ZArith Reals.
From Verif Require Import QuantumSpec Cplx ChannelModel BreitWignerModel.
From Verif Require Import BreitWignerSpec.
Import ListNotations.
Open Scope R_scope.

(** Widths as in every evaluated file, no resonance at zero energy, none exactly at the
    threshold of the competitive channel; [q] is the energy of that channel above the incident *)
Definition proper_line (q : bw_lstate -> R) (ls : bw_lstate) (x : bw_line) : Prop :=
  ln_ER x <> 0 /\ 0 <= ln_GN x /\ 0 <= ln_GG x /\ 0 <= ln_GF x /\ 0 < ln_GG x + ln_GF x /\
  (ls_LRX ls = true -> 0 <= ln_GX x /\ ln_ER x + q ls <> 0).
Definition proper (q : bw_lstate -> R) (f : bw_file) : Prop :=
  forall ls x, In ls (f_lstates f) -> In x (ls_lines ls) -> proper_line q ls x.

Section Limits.
(** k = kappa sqrt E; [ahat] is the scattering radius, [I] the doubled target spin *)
Variables (q : bw_lstate -> R) (kappa ahat : R) (I : Z).

(** the total width at zero energy of an s wave resonance *)
Definition width_at_zero (ls : bw_lstate) (x : bw_line) : R :=
  ln_GG x + ln_GF x + if ls_LRX ls then ln_GX x * sqrt (Rabs (q ls)) / sqrt (Rabs (ln_ER x + q ls)) else 0.
(** the neutron width divided by sqrt E *)
Definition reduced_width (x : bw_line) : R := ln_GN x / sqrt (Rabs (ln_ER x)).
(** E_r - i Gamma / 2 *)
Definition pole_at_zero (ls : bw_lstate) (x : bw_line) : cx := Cx (ln_ER x) (- (width_at_zero ls x / 2)).

Definition s_waves (lss : list bw_lstate) : list bw_lstate := filter (fun ls => Nat.eqb (ls_L ls) 0) lss.

(** the limit of sqrt E times the cross section of a reaction with the widths [w] *)
Definition one_over_v (w : bw_line -> R) (lss : list bw_lstate) : R :=
  pi_value / (kappa * kappa) * Rsum (map (fun ls => Rsum (map (fun x =>
    g_neutron I (Z.abs (ln_AJ x)) * (reduced_width x * w x / norm2 (pole_at_zero ls x))) (ls_lines ls))) (s_waves lss)).

(** 2 k times the scattering length, divided by sqrt E, of levels that interfere *)
Definition length_of (ls : bw_lstate) (xs : list bw_line) : cx :=
  cx_add (rcx (2 * (kappa * ahat)))
         (cx_opp (csum (map (fun x => cdiv (rcx (reduced_width x)) (pole_at_zero ls x)) xs))).

(** the limit of the elastic cross section, when every level interferes with the potential
    scattering only and when all levels with the same J interfere *)
Definition SL_low (lss : list bw_lstate) : R :=
  pi_value / (kappa * kappa) * Rsum (map (fun ls =>
    norm2 (length_of ls []) +
    Rsum (map (fun x => g_neutron I (Z.abs (ln_AJ x)) * (norm2 (length_of ls [x]) - norm2 (length_of ls []))) (ls_lines ls)))
    (s_waves lss)).
Definition ML_low (lss : list bw_lstate) : R :=
  pi_value / (kappa * kappa) * Rsum (map (fun ls =>
    let js := Js abs_J (ls_lines ls) in
    Rsum (map (fun j => g_neutron I j * norm2 (length_of ls (of_J abs_J j (ls_lines ls)))) js)
    + (1 - Rsum (map (g_neutron I) js)) * norm2 (length_of ls []))
    (s_waves lss)).
End Limits.
