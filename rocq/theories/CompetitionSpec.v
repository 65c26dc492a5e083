(** The competitive channel of a Breit-Wigner file as the ENDF-6 manual has it: QX is added to the
    center-of-mass energy of the incident particle to find the energy of the channel, which is closed
    when that is not positive. *)
From Coq Require Import List ZArith Reals Bool.
From Verif Require Import QuantumSpec HardSphereSpec Cplx ChannelModel BreitWignerModel BreitWignerSpec.
Import ListNotations.
Open Scope R_scope.

(** E A / (A + 1) + QX in the laboratory system *)
Definition q_endf (ls : bw_lstate) : R := ls_QX ls * ((ls_AWRI ls + 1) / ls_AWRI ls).
Definition closed_at (E : R) (ls : bw_lstate) : Prop := E + q_endf ls <= 0.

Section File.
Variables (k a : R -> R) (E : R).
Definition competitive_endf (ls : bw_lstate) (x : bw_line) : R :=
  if ls_LRX ls
  then if Rle_dec (E + q_endf ls) 0 then 0
       else ln_GX x * P_at k a (ls_L ls) (E + q_endf ls) / P_at k a (ls_L ls) (ln_ER x + q_endf ls)
  else 0.
Definition endf_level (ls : bw_lstate) (x : bw_line) : level :=
  let l := ls_L ls in
  let n := ln_GN x * P_at k a l E / P_at k a l (ln_ER x) in
  Level (ln_ER x + ln_GN x * (S_at k a l (ln_ER x) - S_at k a l E) / (2 * P_at k a l (ln_ER x)))
        n (ln_GG x) (ln_GF x) (n + ln_GG x + ln_GF x + competitive_endf ls x).

Variables (ahat : R) (I : Z).
Definition ENDF_single_elastic (lss : list bw_lstate) : R :=
  barns k E * Rsum (map (fun ls => SL_elastic (ls_L ls) (U0_of k E ahat ls) E (g_of I) (endf_level ls) (ls_lines ls)) lss).
Definition ENDF_multi_elastic (lss : list bw_lstate) : R :=
  barns k E * Rsum (map (fun ls => ML_elastic (ls_L ls) (U0_of k E ahat ls) E (endf_level ls) I abs_J (ls_lines ls)) lss).
Definition ENDF_capture (lss : list bw_lstate) : R :=
  barns k E * Rsum (map (fun ls => capture_sum E (g_of I) (endf_level ls) (ls_lines ls)) lss).
Definition ENDF_fission (lss : list bw_lstate) : R :=
  barns k E * Rsum (map (fun ls => fission_sum E (g_of I) (endf_level ls) (ls_lines ls)) lss).
End File.
