(** C72, C73: rounding errors from the energy to the penetrability, and at the threshold. *)
From Coq Require Import List ZArith Reals Lra.
From Flocq Require Import Core.Core IEEE754.BinarySingleNaN.
From Verif Require Import Outcome HardSphereSpec DoubleModel RoundingModel ChannelRoundingModel ChannelRoundingSpec ChannelRoundingProofs.
Open Scope R_scope.

(** From the masses, the Q value, the radius and the energy to the channel ratio k a: the error
    grows with the cancellation in E M/(m+M) + Q and with nothing else *)
Theorem C72_channel_ratio hbar unit ma mb mc md q radius energy kappa :
  moderate hbar -> moderate unit -> moderate ma -> moderate mb -> moderate mc -> moderate md -> moderate_Q q -> moderate radius -> moderate_energy energy ->
  cancellation ma mb q energy kappa ->
  let rho := rho_exact hbar unit ma mb mc md q radius energy in let y := channelRatio64 hbar unit ma mb mc md q radius energy in
  is_finite y = true /\ 0 < rho /\ Rabs (B2R y - rho) <= (17 / 2 + 23 / 10 * kappa) * bpow radix2 (-53) * rho.
Proof. exact (ratio_64 hbar unit ma mb mc md q radius energy kappa). Qed.
(** to the penetrability and the shift factor, *)
Theorem C72_channel hbar unit ma mb mc md q radius energy kappa l :
  moderate hbar -> moderate unit -> moderate ma -> moderate mb -> moderate mc -> moderate md -> moderate_Q q -> moderate radius -> moderate_energy energy ->
  cancellation ma mb q energy kappa -> (l <= 4)%nat ->
  let rho := rho_exact hbar unit ma mb mc md q radius energy in in_middle rho ->
  (exists p, channelPenetrability64 l hbar unit ma mb mc md q radius energy = Ok p /\ is_finite p = true /\
     Rabs (B2R p - P_spec l rho) <= (42 + (2 * INR l + 1) * (9 + 3 * kappa)) * bpow radix2 (-53) * P_spec l rho) /\
  (exists s, channelShift64 l hbar unit ma mb mc md q radius energy = Ok s /\ is_finite s = true /\
     Rabs (B2R s - S_spec l rho) <= (42 + (2 * INR l + 1) * (9 + 3 * kappa)) * bpow radix2 (-53) * - S_spec l rho).
Proof. exact (channel_64 hbar unit ma mb mc md q radius energy kappa l). Qed.
(** and in the older interface. *)
Theorem C72_older c awr radius energy l : moderate c -> moderate awr -> moderate radius -> moderate_energy energy ->
  let rho := rho_older c awr radius energy in in_middle rho -> (l <= 4)%nat ->
  exists p s, penetrationShift64 (Z.of_nat l) (neutronWave64 c awr energy * radius)%D = Ok (p, s) /\ is_finite p = true /\ is_finite s = true /\
    Rabs (B2R p - P_spec l rho) <= (42 + (2 * INR l + 1) * 9) * bpow radix2 (-53) * P_spec l rho /\
    Rabs (B2R s - S_spec l rho) <= (42 + (2 * INR l + 1) * 9) * bpow radix2 (-53) * - S_spec l rho.
Proof. exact (older_64 c awr radius energy l). Qed.
(** Elastic scattering is without cancellation *)
Theorem C72_elastic ma mb q energy : B2R q = 0 -> cancellation ma mb q energy 1.
Proof. exact (elastic_cancellation ma mb q energy). Qed.

(** The test for the threshold is right unless nearly all digits cancel, *)
Theorem C73_threshold ma mb q energy kappa : moderate ma -> moderate mb -> moderate_Q q -> moderate_energy energy -> cancellation ma mb q energy kappa ->
  (belowThreshold64 ma mb q energy = true <-> after ma mb q energy < 0).
Proof. exact (threshold_64 ma mb q energy kappa). Qed.
(** but wrong in both directions close to it: a channel may be open below its threshold, where the
    wave number is then zero, and closed above it. *)
Theorem C73_threshold_refuted :
  (exists ma mb q energy, moderate ma /\ moderate mb /\ moderate_Q q /\ moderate_energy energy /\ after ma mb q energy < 0 /\ belowThreshold64 ma mb q energy = false /\
     B2R (wave64 (double_of 1) (double_of 1) ma mb ma mb q energy) = 0) /\
  (exists ma mb q energy, moderate ma /\ moderate mb /\ moderate_Q q /\ moderate_energy energy /\ after ma mb q energy > 0 /\ belowThreshold64 ma mb q energy = true).
Proof. exact threshold_wrong. Qed.
Print Assumptions C72_channel_ratio.
Print Assumptions C72_channel.
Print Assumptions C72_older.
Print Assumptions C72_elastic.
Print Assumptions C73_threshold.
Print Assumptions C73_threshold_refuted.

Example C72_case : moderate (double_of 1) /\ moderate (double_of 235) /\ moderate_Q (double_of 0) /\ moderate_energy (double_of 1) /\
  cancellation (double_of 1) (double_of 235) (double_of 0) (double_of 1) 1 /\
  in_middle (rho_exact (double_of 1) (double_of 1) (double_of 1) (double_of 235) (double_of 1) (double_of 235) (double_of 0) (double_of 1) (double_of 1)).
Proof. exact channel_case. Qed.
(** An inelastic channel at three times its threshold energy *)
Example C72_inelastic : moderate_Q (double_of (-2)) /\ cancellation (double_of 1) (double_of 2) (double_of (-2)) (double_of 9) 2.
Proof. exact inelastic_case. Qed.
Example C72_older_case : in_middle (rho_older (double_of 1) (double_of 235) (double_of 1) (double_of 1)).
Proof. exact older_case. Qed.
