From Coq Require Import String List ZArith Lia Reals Lra Psatz.
From Verif Require Import Outcome QuantumModel SpinFactorModel HardSphereModel KinematicsModel.
Import ListNotations.
Open Scope R_scope.

Lemma fdiv_some a b : b <> 0 -> fdiv a b = Some (a / b).
Proof. intros H. unfold fdiv. destruct (Req_EM_T b 0); [contradiction|reflexivity]. Qed.

Lemma makeParticle_ok id m c s p : (0 <= m /\ 0 <= c) <-> makeParticle id m c s p = Ok (mkParticle id m c s p).
Proof.
  unfold makeParticle, verifyNotNegative. destruct (Rlt_dec m 0), (Rlt_dec c 0); cbn; split; intros H;
    try discriminate; try reflexivity; try lra.
Qed.

Lemma makeParticle_throws id m c s p : (m < 0 \/ c < 0) <-> throws (makeParticle id m c s p).
Proof.
  unfold makeParticle, verifyNotNegative. destruct (Rlt_dec m 0), (Rlt_dec c 0); cbn; split; intros H;
    try (eexists; reflexivity); try lra; destruct H; discriminate.
Qed.

Lemma reduced_mass_bounds a b id : 0 <= p_mass a -> 0 <= p_mass b -> 0 < p_mass a + p_mass b ->
  exists mu r, pp_reduced (makeParticlePair a b id) = Some mu /\ pp_ratio (makeParticlePair a b id) = Some r /\
    0 <= mu <= p_mass a /\ mu <= p_mass b /\ 0 <= r <= 1 /\ mu = p_mass a * r.
Proof.
  intros Ha Hb Hs. cbn. rewrite !fdiv_some by lra. do 2 eexists; split; [reflexivity|]; split; [reflexivity|].
  assert (Hi : 0 < / (p_mass a + p_mass b)) by (apply Rinv_0_lt_compat; lra).
  set (A := p_mass a) in *. set (B := p_mass b) in *. unfold Rdiv.
  assert (E : (A + B) * / (A + B) = 1) by (field; lra).
  assert (HAi : 0 <= A * / (A + B)) by (apply Rmult_le_pos; lra).
  assert (HBi : 0 <= B * / (A + B)) by (apply Rmult_le_pos; lra).
  rewrite Rmult_plus_distr_r in E.
  repeat split; try nra.
Qed.

(** Both masses zero: neither quantity is a number. *)
Lemma massless_pair a b id : p_mass a = 0 -> p_mass b = 0 ->
  pp_reduced (makeParticlePair a b id) = None /\ pp_ratio (makeParticlePair a b id) = None.
Proof.
  intros Ha Hb. cbn. unfold fdiv. rewrite Ha, Hb. destruct (Req_EM_T (0 + 0) 0) as [_|n]; [auto|exfalso; apply n; ring].
Qed.

Lemma pair_symmetric a b id mu r mu' r' : 
  pp_reduced (makeParticlePair a b id) = Some mu -> pp_ratio (makeParticlePair a b id) = Some r ->
  pp_reduced (makeParticlePair b a id) = Some mu' -> pp_ratio (makeParticlePair b a id) = Some r' ->
  mu = mu' /\ r + r' = 1.
Proof.
  cbn. unfold fdiv. destruct (Req_EM_T (p_mass a + p_mass b) 0) as [|n]; [discriminate|].
  destruct (Req_EM_T (p_mass b + p_mass a) 0) as [|n']; [discriminate|].
  intros [= <-] [= <-] [= <-] [= <-]. split; field; lra.
Qed.

Section Wave.
Context (hbar mu ratio q : R) (Hh : 0 < hbar) (Hmu : 0 <= mu).

Lemma waveNumber_square e : 0 <= waveNumber hbar mu ratio q e /\
  (hbar * waveNumber hbar mu ratio q e) ^ 2 = 2 * mu * Rabs (e * ratio + q).
Proof.
  unfold waveNumber. pose proof (Rabs_pos (e * ratio + q)) as Hp.
  assert (H : 0 <= 2 * mu * Rabs (e * ratio + q)) by (apply Rmult_le_pos; lra).
  split.
  - apply Rmult_le_pos; [apply sqrt_pos|apply Rlt_le, Rinv_0_lt_compat, Hh].
  - replace (hbar * (sqrt (2 * mu * Rabs (e * ratio + q)) / hbar)) with (sqrt (2 * mu * Rabs (e * ratio + q)))
      by (field; lra). rewrite <- Rsqr_pow2. apply Rsqr_sqrt, H.
Qed.

Lemma waveNumber_zero e : waveNumber hbar mu ratio q e = 0 <-> mu = 0 \/ e * ratio + q = 0.
Proof.
  destruct (waveNumber_square e) as [H1 H2]. split.
  - intros E. rewrite E in H2. replace ((hbar * 0) ^ 2) with 0 in H2 by ring.
    destruct (Req_dec mu 0) as [|N]; [left; assumption|right].
    assert (E2 : Rabs (e * ratio + q) = 0) by (pose proof (Rabs_pos (e * ratio + q)); nra).
    destruct (Req_dec (e * ratio + q) 0) as [|N2]; [assumption|exfalso; apply (Rabs_no_R0 _ N2 E2)].
  - intros [E|E]; unfold waveNumber; rewrite E; rewrite ?Rabs_R0, ?Rmult_0_r, ?Rmult_0_l, sqrt_0; unfold Rdiv; ring.
Qed.

Lemma belowThreshold_spec e : belowThreshold ratio q e = true <-> e * ratio + q < 0.
Proof. unfold belowThreshold. destruct (Rlt_dec (ratio * e + q) 0); split; intros; try discriminate; try reflexivity; lra. Qed.

Lemma belowThreshold_monotone e e' : 0 <= ratio -> e' <= e -> belowThreshold ratio q e = true ->
  belowThreshold ratio q e' = true.
Proof. intros Hr He H. apply belowThreshold_spec in H. apply belowThreshold_spec. nra. Qed.

Lemma waveNumber_increasing e e' : 0 < mu -> 0 < ratio -> belowThreshold ratio q e = false -> e < e' ->
  waveNumber hbar mu ratio q e < waveNumber hbar mu ratio q e'.
Proof.
  intros Hm Hr Hb He.
  assert (Hnb : 0 <= e * ratio + q).
  { unfold belowThreshold in Hb. destruct (Rlt_dec (ratio * e + q) 0); [discriminate|lra]. }
  unfold waveNumber. apply Rmult_lt_compat_r; [apply Rinv_0_lt_compat, Hh|].
  rewrite !Rabs_right by nra. apply sqrt_lt_1; [apply Rmult_le_pos; nra|apply Rmult_le_pos; nra|].
  apply Rmult_lt_compat_l; nra.
Qed.
End Wave.

(** The two interfaces agree on the neutron wave number when the older constant is
    sqrt(2 m_n)/hbar. *)
Lemma wave_numbers_agree hbar mn A e : 0 < hbar -> 0 < mn -> 0 < A ->
  let mu := mn * (A * mn) / (mn + A * mn) in
  let ratio := (A * mn) / (mn + A * mn) in
  waveNumber hbar mu ratio 0 e = neutronWaveNumber (sqrt (2 * mn) / hbar) A e.
Proof.
  intros Hh Hm HA mu ratio. unfold waveNumber, neutronWaveNumber. rewrite Rplus_0_r.
  assert (Er : ratio = A / (A + 1)) by (unfold ratio; field; nra).
  assert (Em : mu = mn * (A / (A + 1))) by (unfold mu; field; nra).
  assert (Hf : 0 <= A / (A + 1)) by (apply Rlt_le, Rdiv_lt_0_compat; lra).
  rewrite Er, Em, Rabs_mult, (Rabs_right (A / (A + 1))) by lra.
  replace (2 * (mn * (A / (A + 1))) * (Rabs e * (A / (A + 1))))
    with ((2 * mn) * (Rabs e) * ((A / (A + 1)) * (A / (A + 1)))) by ring.
  pose proof (Rabs_pos e).
  set (f := A / (A + 1)) in *.
  rewrite (sqrt_mult_alt (2 * mn * Rabs e)) by (apply Rmult_le_pos; lra).
  rewrite (sqrt_mult_alt (2 * mn)) by lra. rewrite (sqrt_square f) by lra. unfold f.
  field. lra.
Qed.

(** *** Sommerfeld parameter *)
Lemma sommerfeld_neutral pi eps hbar z Z mu k : z = 0 \/ Z = 0 ->
  sommerfeldParameter pi eps hbar z Z mu k = Some 0.
Proof.
  intros H. unfold sommerfeldParameter. destruct (Req_EM_T (z * Z) 0) as [|n]; [reflexivity|].
  exfalso; apply n. destruct H as [-> | ->]; ring.
Qed.

Lemma sommerfeld_value pi eps hbar z Z mu k : 0 < pi -> 0 < eps -> 0 < hbar -> 0 < mu -> 0 < k -> z * Z <> 0 ->
  sommerfeldParameter pi eps hbar z Z mu k = Some (z * Z * mu / (4 * pi * eps * hbar ^ 2 * k)).
Proof.
  intros Hp He Hh Hm Hk Hz. unfold sommerfeldParameter. destruct (Req_EM_T (z * Z) 0) as [|n]; [contradiction|].
  rewrite fdiv_some by lra. rewrite fdiv_some.
  - f_equal. field. repeat split; nra.
  - apply Rgt_not_eq, Rdiv_lt_0_compat; [apply Rmult_lt_0_compat; nra|lra].
Qed.

(** At a threshold (k = 0) the parameter of a charged pair is not a number. *)
Lemma sommerfeld_threshold pi eps hbar z Z mu : 0 < mu -> z * Z <> 0 ->
  sommerfeldParameter pi eps hbar z Z mu 0 = None.
Proof.
  intros Hm Hz. unfold sommerfeldParameter. destruct (Req_EM_T (z * Z) 0) as [|n]; [contradiction|].
  rewrite fdiv_some by lra. unfold fdiv.
  destruct (Req_EM_T (hbar * hbar * 0 / mu) 0) as [|n']; [reflexivity|exfalso; apply n'; field; lra].
Qed.

Lemma reaction_elastic incident pair : (exists a b, makeReactionID incident pair = Elastic a b) <-> pp_id incident = pp_id pair.
Proof.
  unfold makeReactionID. destruct (string_dec (pp_id incident) (pp_id pair)); split; intros H; try assumption; eauto.
  destruct H as (a & b & E); discriminate. contradiction.
Qed.

Lemma reaction_injective incident p p' :
  makeReactionID incident p = makeReactionID incident p' <-> pp_id p = pp_id p'.
Proof.
  unfold makeReactionID. destruct (string_dec (pp_id incident) (pp_id p)) as [E|E], (string_dec (pp_id incident) (pp_id p')) as [E'|E'];
    split; intros H; try discriminate; try congruence.
Qed.
