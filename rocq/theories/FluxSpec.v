(** What conservation of flux says about the cross sections of a Breit-Wigner file: the optical
    theorem, and the limits that follow from a collision matrix of modulus one at most.
    Written with the collision matrix of BreitWignerSpec.v. *)
From Coq Require Import List ZArith Reals.
From Verif Require Import QuantumSpec HardSphereSpec Cplx ChannelModel BreitWignerModel BreitWignerSpec.
Import ListNotations.
Open Scope R_scope.

(** No width is negative *)
Definition open_widths (f : bw_file) : Prop := forall ls x, In ls (f_lstates f) -> In x (ls_lines ls) ->
  0 <= ln_GN x /\ 0 <= ln_GG x /\ 0 <= ln_GF x /\ (ls_LRX ls = true -> 0 <= ln_GX x).
(** No two levels have the same l and J *)
Definition isolated (f : bw_file) : Prop := forall ls, In ls (f_lstates f) -> NoDup (map abs_J (ls_lines ls)).

Section Flux.
Variables (k a : R -> R) (E : R) (q : bw_lstate -> R) (ahat : R) (I : Z).

(** the cross section of the competitive reaction, which the code does not return *)
Definition competitive_width (ls : bw_lstate) (x : bw_line) : R :=
  if ls_LRX ls then ln_GX x * P_at k a (ls_L ls) (E + q ls) / P_at k a (ls_L ls) (ln_ER x + q ls) else 0.
Definition BW_competitive (lss : list bw_lstate) : R :=
  barns k E * Rsum (map (fun ls => Rsum (map (fun x =>
    g_of I x * reaction E (competitive_width ls x) (level_of k a E q ls x)) (ls_lines ls))) lss).

(** the collision matrix of all levels with one l and J *)
Definition U_J (ls : bw_lstate) (j : Z) : cx :=
  collision (U0_of k E ahat ls) E (map (level_of k a E q ls) (of_J abs_J j (ls_lines ls))).
(** the optical theorem: the total cross section is 2 pi / k^2 times the sum of g (1 - Re U) *)
Definition optical (lss : list bw_lstate) : R :=
  2 * barns k E * Rsum (map (fun ls =>
    Rsum (map (fun j => g_neutron I j * (1 - re (U_J ls j))) (Js abs_J (ls_lines ls)))
    + (2 * INR (ls_L ls) + 1 - Rsum (map (g_neutron I) (Js abs_J (ls_lines ls)))) * (1 - re (U0_of k E ahat ls))) lss).
(** pi / k^2 times the sum of 2 l + 1, the limit of the reactions; four times that is the limit of the rest *)
Definition unit_limit (lss : list bw_lstate) : R := barns k E * Rsum (map (fun ls => 2 * INR (ls_L ls) + 1) lss).
End Flux.
