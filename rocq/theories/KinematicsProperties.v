(** Particles, pairs and channel kinematics: C13 and the particle part of C14. *)
From Coq Require Import String List ZArith Lia Reals Lra.
From Verif Require Import Outcome KinematicsModel KinematicsProofs.
Import ListNotations.
Open Scope R_scope.

Theorem C13_reduced_mass_and_ratio a b id : 0 <= p_mass a -> 0 <= p_mass b -> 0 < p_mass a + p_mass b ->
  exists mu r, pp_reduced (makeParticlePair a b id) = Some mu /\ pp_ratio (makeParticlePair a b id) = Some r /\
    0 <= mu <= p_mass a /\ mu <= p_mass b /\ 0 <= r <= 1 /\ mu = p_mass a * r.
Proof. exact (reduced_mass_bounds a b id). Qed.
Print Assumptions C13_reduced_mass_and_ratio.

(** The remaining case: two massless particles (the dummy fission pair) give no number. *)
Theorem C13_massless_pair a b id : p_mass a = 0 -> p_mass b = 0 ->
  pp_reduced (makeParticlePair a b id) = None /\ pp_ratio (makeParticlePair a b id) = None.
Proof. exact (massless_pair a b id). Qed.
Print Assumptions C13_massless_pair.

Theorem C13_wave_number hbar mu ratio q : 0 < hbar -> 0 <= mu -> forall e,
  0 <= waveNumber hbar mu ratio q e /\
  (hbar * waveNumber hbar mu ratio q e) ^ 2 = 2 * mu * Rabs (e * ratio + q).
Proof. exact (waveNumber_square hbar mu ratio q). Qed.
Print Assumptions C13_wave_number.

Theorem C13_wave_number_zero hbar mu ratio q : 0 < hbar -> 0 <= mu -> forall e,
  waveNumber hbar mu ratio q e = 0 <-> mu = 0 \/ e * ratio + q = 0.
Proof. exact (waveNumber_zero hbar mu ratio q). Qed.
Print Assumptions C13_wave_number_zero.

Theorem C13_below_threshold ratio q e : belowThreshold ratio q e = true <-> e * ratio + q < 0.
Proof. exact (belowThreshold_spec ratio q e). Qed.
Print Assumptions C13_below_threshold.

Theorem C13_threshold_monotone ratio q e e' : 0 <= ratio -> e' <= e ->
  belowThreshold ratio q e = true -> belowThreshold ratio q e' = true.
Proof. exact (belowThreshold_monotone ratio q e e'). Qed.
Print Assumptions C13_threshold_monotone.

Theorem C13_wave_number_increasing hbar mu ratio q : 0 < hbar -> forall e e',
  0 < mu -> 0 < ratio -> belowThreshold ratio q e = false -> e < e' ->
  waveNumber hbar mu ratio q e < waveNumber hbar mu ratio q e'.
Proof. exact (fun Hh e e' Hm => waveNumber_increasing hbar mu ratio q Hh (Rlt_le _ _ Hm) e e' Hm). Qed.
Print Assumptions C13_wave_number_increasing.

(** The older interface uses the same wave number for neutrons. *)
Theorem C13_interfaces_agree hbar mn A e : 0 < hbar -> 0 < mn -> 0 < A ->
  let mu := mn * (A * mn) / (mn + A * mn) in
  let ratio := (A * mn) / (mn + A * mn) in
  waveNumber hbar mu ratio 0 e = neutronWaveNumber (sqrt (2 * mn) / hbar) A e.
Proof. exact (wave_numbers_agree hbar mn A e). Qed.
Print Assumptions C13_interfaces_agree.

Theorem C13_sommerfeld pi eps hbar z Z mu k : 0 < pi -> 0 < eps -> 0 < hbar -> 0 < mu -> 0 < k -> z * Z <> 0 ->
  sommerfeldParameter pi eps hbar z Z mu k = Some (z * Z * mu / (4 * pi * eps * hbar ^ 2 * k)).
Proof. exact (sommerfeld_value pi eps hbar z Z mu k). Qed.
Print Assumptions C13_sommerfeld.

Theorem C13_sommerfeld_neutral pi eps hbar z Z mu k : z = 0 \/ Z = 0 ->
  sommerfeldParameter pi eps hbar z Z mu k = Some 0.
Proof. exact (sommerfeld_neutral pi eps hbar z Z mu k). Qed.
Print Assumptions C13_sommerfeld_neutral.

(** At threshold a charged pair has no finite Sommerfeld parameter. *)
Theorem C13_sommerfeld_threshold pi eps hbar z Z mu : 0 < mu -> z * Z <> 0 ->
  sommerfeldParameter pi eps hbar z Z mu 0 = None.
Proof. exact (sommerfeld_threshold pi eps hbar z Z mu). Qed.
Print Assumptions C13_sommerfeld_threshold.

Theorem C13_reaction_elastic incident pair :
  (exists a b, makeReactionID incident pair = Elastic a b) <-> pp_id incident = pp_id pair.
Proof. exact (reaction_elastic incident pair). Qed.
Print Assumptions C13_reaction_elastic.

Theorem C13_reaction_distinct incident p p' :
  makeReactionID incident p = makeReactionID incident p' <-> pp_id p = pp_id p'.
Proof. exact (reaction_injective incident p p'). Qed.
Print Assumptions C13_reaction_distinct.

Example C13_case :
  let n := mkParticle "n" 1 0 1 1 in let t := mkParticle "He3" 3 2 1 1 in
  pp_reduced (makeParticlePair n t "n,He3") = Some (3 / 4) /\
  belowThreshold (3 / 4) (-1) 1 = true /\ belowThreshold (3 / 4) (-1) 2 = false /\
  waveNumber 1 (3 / 4) (3 / 4) (-1) (4 / 3) = 0.
Proof.
  cbn. unfold fdiv, belowThreshold. destruct (Req_EM_T (1 + 3) 0); [exfalso; lra|].
  split; [f_equal; lra|]. split; [destruct (Rlt_dec _ 0); [reflexivity|exfalso; lra]|].
  split; [destruct (Rlt_dec _ 0); [exfalso; lra|reflexivity]|].
  apply waveNumber_zero; lra.
Qed.

(** C14, particles *)
Theorem C14_particle_accepted id m c s p :
  (0 <= m /\ 0 <= c) <-> makeParticle id m c s p = Ok (mkParticle id m c s p).
Proof. exact (makeParticle_ok id m c s p). Qed.
Print Assumptions C14_particle_accepted.

Theorem C14_particle_rejected id m c s p : (m < 0 \/ c < 0) <-> throws (makeParticle id m c s p).
Proof. exact (makeParticle_throws id m c s p). Qed.
Print Assumptions C14_particle_rejected.

Example C14_particle_case : throws (makeParticle "x" (-1) 0 0 1) /\ is_ok (makeParticle "n" 1 0 1 1).
Proof.
  split; [apply makeParticle_throws; lra|]. exists (mkParticle "n" 1 0 1 1). apply makeParticle_ok; lra.
Qed.
