(** The single-level Breit-Wigner formula with level shift, for any number of channels. *)
From Coq Require Import Reals.
From mathcomp Require Import all_ssreflect all_algebra.
From Verif Require Import KinematicsModel Cplx RMatrixModel RMatrixSpec ChannelModel SpinGroupModel SpinGroupSpec.
Set Implicit Arguments.
Unset Strict Implicit.
Unset Printing Implicit Defensive.

Section Level.
Variables (n : nat) (b : boundary_option) (energy : R) (r : resonance) (vs : seq values).
Local Open Scope R_scope.
(** Gamma_i = 2 P_i gamma_i^2 of the open channels, and the eliminated width 2 gamma^2 *)
Definition partial (i : 'I_n) : R := 2 * v_P (val_of vs i) * (open_width vs r i * open_width vs r i).
Definition eliminated : R := 2 * (rs_eliminated r * rs_eliminated r).
Definition full : R := eliminated + \big[Rplus/0]_i partial i.
(** E_r - sum of (S_i - B_i) gamma_i^2, the shift being absent when B is chosen to be S *)
Definition shifted : R :=
  rs_energy r - \big[Rplus/0]_(i < n) ((if b is Constant then v_S (val_of vs i) - v_B (val_of vs i) else 0) *
                                       (open_width vs r i * open_width vs r i)).
Definition distance : R := energy - shifted.
Definition resonant : R := distance * distance + full * full / 4.
(** potential scattering, resonance scattering and their interference *)
Definition scatter (c : 'I_n) : R :=
  let phi := v_phi (val_of vs c) in
  4 * (sin phi * sin phi) +
  (partial c * partial c - 2 * partial c * full * (sin phi * sin phi) + 2 * partial c * distance * sin (2 * phi)) / resonant.
Definition transfer (c j : 'I_n) : R := partial c * partial j / resonant.
Definition captured (c : 'I_n) : R := partial c * eliminated / resonant.
End Level.

Definition single_level (b : boundary_option) (energy : R) (r : resonance) (g : group) (vs : seq values) (factor : R) (k : reactionID) : R :=
  (factor * \big[Rplus/0]_(c : 'I_(gsize g) | isIncidentChannel (chan c))
     (\big[Rplus/0]_(j : 'I_(gsize g) | c_reaction (chan j) == k)
         (if j == c then scatter b energy r vs c else transfer b energy r vs c j)
      + (if k == capture_id g then captured b energy r vs c else 0)))%re.
