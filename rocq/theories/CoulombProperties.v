(** Charged particle channels: C24 and C26. *)
From Coq Require Import String List ZArith Lia Reals Lra.
From Verif Require Import Outcome HardSphereModel HardSphereSpec KinematicsModel CoulombModel CoulombProofs.
Import ListNotations.
Open Scope R_scope.

(** C24 refuted: the documented sum of arctangents is not what is computed ... *)
Theorem C24_coulomb_phase_refuted : exists l eta w, 0 < eta /\
  coulombPhaseShift_charged l eta = Some w /\ w <> coulomb_phase_documented l eta.
Proof. exact coulomb_phase_refuted. Qed.
Print Assumptions C24_coulomb_phase_refuted.

(** ... for any l > 0 and any small eta: the value exceeds it by at least l (1 - pi/4). *)
Theorem C24_coulomb_phase_exceeds l eta : 0 < eta -> eta <= PI / 4 ->
  exists w, coulombPhaseShift_charged l eta = Some w /\
    INR l * (1 - PI / 4) <= w - coulomb_phase_documented l eta.
Proof. exact (coulomb_phase_exceeds l eta). Qed.
Print Assumptions C24_coulomb_phase_exceeds.

(** Without charge the documented value is 0 but the code divides by zero. *)
Theorem C24_coulomb_phase_neutral l : (0 < l)%nat -> coulombPhaseShift_charged l 0 = None.
Proof. exact (coulomb_phase_neutral l). Qed.
Print Assumptions C24_coulomb_phase_neutral.

(** What does hold: l = 0, for every eta. *)
Theorem C24_coulomb_phase_partial eta : coulombPhaseShift_charged 0 eta = Some (coulomb_phase_documented 0 eta).
Proof. exact (coulomb_phase_zero eta). Qed.
Print Assumptions C24_coulomb_phase_partial.

Example C24_case : 0 < PI / 4 /\ PI / 4 <= PI / 4.
Proof. pose proof PI_RGT_0. lra. Qed.

(** C26, the part that holds: F >= 0. *)
Theorem C26_charged_phase_partial w : 0 <= cF w -> cF w <> 0 \/ cG w <> 0 ->
  let r := sqrt (cF w * cF w + cG w * cG w) in
  cG w = r * cos (phase_charged w) /\ cF w = r * sin (phase_charged w).
Proof. exact (phase_charged_arg w). Qed.
Print Assumptions C26_charged_phase_partial.

Theorem C26_charged_phase_refuted : exists w,
  sin (2 * phase_charged w) <> 2 * cF w * cG w / (cF w * cF w + cG w * cG w).
Proof. exact phase_charged_refuted. Qed.
Print Assumptions C26_charged_phase_refuted.

(** Every F < 0 is affected: the double angle has the opposite sine. *)
Theorem C26_charged_phase_sign w : cF w < 0 ->
  sin (2 * phase_charged w) = - (2 * cF w * cG w / (cF w * cF w + cG w * cG w)).
Proof. exact (phase_charged_sign w). Qed.
Print Assumptions C26_charged_phase_sign.

(** This happens for genuine waves: l = 0, no charge, rho between pi and 2 pi. *)
Theorem C26_charged_phase_wave rho : PI < rho < 2 * PI -> cos rho <> 0 ->
  let w := mkCoulomb (waveG 0 rho) (waveF 0 rho) (dG 0 rho) (dF 0 rho) in
  ~ is_phase 0 rho (phase_charged w).
Proof. exact (phase_charged_wrong_wave rho). Qed.
Print Assumptions C26_charged_phase_wave.

(** Penetrability and shift factor have no such defect. *)
Theorem C26_charged_penetrability_shift l rho :
  let w := mkCoulomb (waveG l rho) (waveF l rho) (dG l rho) (dF l rho) in
  penetrability_charged w rho = P_spec l rho /\ shift_charged w rho = S_spec l rho.
Proof. exact (charged_free l rho). Qed.
Print Assumptions C26_charged_penetrability_shift.

Example C26_case : exists rho, PI < rho < 2 * PI /\ cos rho <> 0.
Proof.
  exists (5 * (PI / 4)). pose proof PI_RGT_0. split; [lra|]. rewrite cos_5PI4.
  apply Rlt_not_eq. assert (0 < sqrt 2) by (apply sqrt_lt_R0; lra).
  apply Rmult_lt_reg_r with (sqrt 2); [lra|]. unfold Rdiv. rewrite Rmult_assoc, Rinv_l; lra.
Qed.
