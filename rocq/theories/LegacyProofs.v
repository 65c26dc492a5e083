(** The legacy Breit-Wigner resonances of the R-matrix interface against the collision
    matrix: one channel, one resonance, one group. *)
From Coq Require Import String List ZArith Reals Lra Lia Permutation Bool Psatz.
From Verif Require Import Outcome QuantumModel QuantumSpec QuantumProofs SpinFactorModel SpinFactorProofs
  HardSphereModel HardSphereSpec HardSphereProofs KinematicsModel CoulombModel Cplx RMatrixModel ChannelModel
  BreitWignerModel LegacyModel BreitWignerSpec ListFacts BreitWignerProofs BreitWignerSystemProofs.
Import ListNotations.
Open Scope R_scope.

(** * The interference of the levels of a group *)
Lemma square_sum {X} (f : X -> R) l : Rsum (map f l) * Rsum (map f l) =
  Rsum (map (fun x => f x * f x) l) + pair_sum (fun x y => 2 * (f x * f y)) l.
Proof.
  induction l as [|x l IH]; cbn [map pair_sum]; rewrite ?Rsum_cons, ?Rsum_nil; [ring|].
  assert (H : Rsum (map (fun y => 2 * (f x * f y)) l) = 2 * f x * Rsum (map f l)).
  { rewrite <- Rsum_scale. apply Rsum_ext; intros; ring. }
  rewrite H. transitivity (f x * f x + 2 * f x * Rsum (map f l) + Rsum (map f l) * Rsum (map f l)); [ring|].
  rewrite IH; ring.
Qed.
Lemma pair_sum_plus {X} (f g : X -> X -> R) l :
  pair_sum (fun x y => f x y + g x y) l = pair_sum f l + pair_sum g l.
Proof.
  induction l as [|x l IH]; cbn [pair_sum]; [ring|]. rewrite IH, (Rsum_plus (f x) (g x)). ring.
Qed.
Lemma pair_sum_ext {X} (f g : X -> X -> R) l : (forall x y, In x l -> In y l -> f x y = g x y) ->
  pair_sum f l = pair_sum g l.
Proof.
  induction l as [|x l IH]; intros H; cbn [pair_sum]; [reflexivity|].
  rewrite IH by (intros; apply H; right; assumption). f_equal. apply Rsum_ext.
  intros y Hy. apply H; [left; reflexivity | right; exact Hy].
Qed.
Lemma pair_sum_map {X Y} (h : X -> Y) (f : Y -> Y -> R) l :
  pair_sum f (map h l) = pair_sum (fun x y => f (h x) (h y)) l.
Proof. induction l as [|x l IH]; cbn [pair_sum map]; [reflexivity|]. rewrite IH, map_map. reflexivity. Qed.

(** The levels of one J: one at a time, plus the interference of the pairs *)
Lemma scattered_many phi E vs : (forall v, In v vs -> norm2 (pole E v) <> 0) ->
  let U0 := cis (- (2 * phi)) in
  scattered (collision U0 E vs) - scattered U0 =
  Rsum (map (fun v => scattered (collision U0 E [v]) - scattered U0) vs)
  + pair_sum (interference E) vs.
Proof.
  intros H U0. unfold U0. rewrite scattered_closed, scattered_hard.
  assert (HA : sumA E vs * sumA E vs + sumB E vs * sumB E vs =
    Rsum (map (fun v => sumA E [v] * sumA E [v] + sumB E [v] * sumB E [v]) vs)
    + pair_sum (interference E) vs).
  { unfold sumA at 1 2, sumB at 1 2. rewrite !square_sum.
    rewrite (Rsum_plus (fun v => sumA E [v] * sumA E [v])).
    rewrite (Rsum_ext (fun v => sumA E [v] * sumA E [v])
       (fun v => w_n v * (w_T v / 2) / norm2 (pole E v) * (w_n v * (w_T v / 2) / norm2 (pole E v))))
      by (intros; rewrite sumA1; reflexivity).
    rewrite (Rsum_ext (fun v => sumB E [v] * sumB E [v])
       (fun v => w_n v * (E - w_E v) / norm2 (pole E v) * (w_n v * (E - w_E v) / norm2 (pole E v))))
      by (intros; rewrite sumB1; reflexivity).
    rewrite (pair_sum_ext (interference E) (fun v w =>
       2 * (w_n v * (w_T v / 2) / norm2 (pole E v) * (w_n w * (w_T w / 2) / norm2 (pole E w)))
       + 2 * (w_n v * (E - w_E v) / norm2 (pole E v) * (w_n w * (E - w_E w) / norm2 (pole E w))))).
    2:{ intros v w Hv Hw. unfold interference. field. split; apply H; assumption. }
    rewrite pair_sum_plus. ring. }
  rewrite (Rsum_ext _ (fun v => - (4 * (sin phi * sin phi)) * sumA E [v] + 2 * sin (2 * phi) * sumB E [v]
       + (sumA E [v] * sumA E [v] + sumB E [v] * sumB E [v]))).
  2:{ intros v _. rewrite scattered_closed. ring. }
  rewrite (Rsum_plus (fun v => - (4 * (sin phi * sin phi)) * sumA E [v] + 2 * sin (2 * phi) * sumB E [v])).
  rewrite (Rsum_plus (fun v => - (4 * (sin phi * sin phi)) * sumA E [v])), !Rsum_scale.
  rewrite (Rsum_ext (fun v => sumA E [v]) (fun v => w_n v * (w_T v / 2) / norm2 (pole E v)))
    by (intros; apply sumA1).
  rewrite (Rsum_ext (fun v => sumB E [v]) (fun v => w_n v * (E - w_E v) / norm2 (pole E v)))
    by (intros; apply sumB1).
  change (Rsum (map (fun v => w_n v * (w_T v / 2) / norm2 (pole E v)) vs)) with (sumA E vs).
  change (Rsum (map (fun v => w_n v * (E - w_E v) / norm2 (pole E v)) vs)) with (sumB E vs).
  lra.
Qed.

(** * Values in the result map *)
Definition mval (m : legacy_map) (k : legacy_key) : R := match m k with Some x => x | None => 0 end.
Lemma key_eqb_refl k : legacy_key_eqb k k = true.
Proof. destruct k as [[p r] t]. unfold legacy_key_eqb. rewrite !String.eqb_refl. reflexivity. Qed.
Lemma key_eqb_eq k k' : legacy_key_eqb k k' = true <-> k = k'.
Proof.
  split; [|intros ->; apply key_eqb_refl]. destruct k as [[p r] t], k' as [[p' r'] t'].
  unfold legacy_key_eqb. intros H. apply andb_true_iff in H as [H H3]. apply andb_true_iff in H as [H1 H2].
  apply String.eqb_eq in H1, H2, H3. congruence.
Qed.
Lemma mval_at m k x : mval (accumulateAt m k x) k = mval m k + x.
Proof. unfold mval, accumulateAt. rewrite key_eqb_refl. reflexivity. Qed.
Lemma mval_other m k k' x : k <> k' -> mval (accumulateAt m k' x) k = mval m k.
Proof.
  intros H. unfold mval, accumulateAt. destruct (legacy_key_eqb k k') eqn:E; [|reflexivity].
  apply key_eqb_eq in E. contradiction.
Qed.

Section Channel.
Variables (hbar epsilon0 : R) (cwf : nat -> R -> R -> outcome coulomb) (mn : R).
Hypotheses (Hh : 0 < hbar) (Hmn : 0 < mn).
Definition C_new : R := sqrt (2 * mn) / hbar.
Lemma C_new_pos : 0 < C_new.
Proof. unfold C_new. apply Rdiv_lt_0_compat; [apply sqrt_lt_R0; lra | exact Hh]. Qed.

Variables (incident target : string) (A : R) (I : Z).
Hypotheses (HA : 0 < A).

(** The channels of the legacy system *)
Definition legacy_channel (c : channel) (rad : radii) : Prop :=
  exists pr q, legacyPair mn incident target A I = Ok pr /\
    c = makeChannel Neutron pr pr (pp_id pr) 0 q rad 0.

Lemma legacyPair_ok : exists pr, legacyPair mn incident target A I = Ok pr /\
  pp_reduced pr = Some (mn * (A * mn) / (mn + A * mn)) /\ pp_ratio pr = Some (A * mn / (mn + A * mn)) /\
  p_charge (pp_particle pr) = 0 /\ p_charge (pp_residual pr) = 0 /\
  p_spin (pp_particle pr) = 1%Z /\ p_spin (pp_residual pr) = I /\
  p_id (pp_particle pr) = incident /\ p_id (pp_residual pr) = target.
Proof.
  unfold legacyPair, makeParticle, verifyNotNegative.
  assert (0 < A * mn) by (apply Rmult_lt_0_compat; assumption).
  destruct (Rlt_dec mn 0); [lra|]. destruct (Rlt_dec 0 0); [lra|]. destruct (Rlt_dec (A * mn) 0); [lra|].
  cbn [bind]. eexists; split; [reflexivity|]. cbn. unfold fdiv.
  destruct (Req_EM_T (mn + A * mn) 0); [lra|]. repeat split.
Qed.

Lemma channel_k c rad e : legacy_channel c rad -> channelWaveNumber hbar c e = Some (k_old C_new A e).
Proof.
  intros (pr & q & Hpr & ->). destruct legacyPair_ok as (pr' & Hpr' & H1 & H2 & _).
  rewrite Hpr in Hpr'. injection Hpr' as <-. unfold channelWaveNumber, makeChannel; cbn [c_pair c_incident c_q].
  rewrite H1, H2. unfold waveNumber, k_old, C_new. f_equal.
  rewrite Rplus_0_r, Rabs_mult.
  assert (HR : A * mn / (mn + A * mn) = A / (A + 1)) by (field; split; nra).
  assert (HM : mn * (A * mn) / (mn + A * mn) = mn * (A / (A + 1))) by (field; split; nra).
  assert (Hq : 0 < A / (A + 1)) by (apply Rdiv_lt_0_compat; lra).
  rewrite HR, HM, (Rabs_right (A / (A + 1))) by lra.
  set (w := A / (A + 1)) in *.
  replace (2 * (mn * w) * (Rabs e * w)) with (2 * mn * (w * w) * Rabs e) by ring.
  assert (0 < w * w) by nra.
  rewrite sqrt_mult; [|apply Rmult_le_pos; lra|apply Rabs_pos]. rewrite sqrt_mult by lra.
  rewrite sqrt_square by lra. unfold Rdiv; ring.
Qed.

Lemma channel_eta c rad e : legacy_channel c rad -> channelEta hbar epsilon0 c e = Some 0.
Proof.
  intros (pr & q & Hpr & ->). destruct legacyPair_ok as (pr' & Hpr' & _ & _ & H3 & _).
  rewrite Hpr in Hpr'. injection Hpr' as <-. unfold channelEta, makeChannel; cbn [c_pair].
  rewrite H3, Rmult_0_l. destruct (Req_EM_T 0 0); [reflexivity | lra].
Qed.

Lemma channel_spin c rad : is_spin I -> legacy_channel c rad ->
  spinFactor c = g_neutron I (qJ (c_numbers c)) /\ c_radii c = rad /\
  (forall type, legacyKey c type = (incident, target, type)).
Proof.
  intros HI (pr & q & Hpr & ->). destruct legacyPair_ok as (pr' & Hpr' & _ & _ & _ & _ & H5 & H6 & H7 & H8).
  rewrite Hpr in Hpr'. injection Hpr' as <-. unfold spinFactor, legacyKey, makeChannel; cbn [c_pair c_numbers c_radii].
  rewrite H5, H6, H7, H8. split; [|split; reflexivity].
  rewrite factor_alt by (unfold is_spin in *; lia). unfold g_neutron. rewrite !plus_IZR. reflexivity.
Qed.

Lemma channel_P c rad e o : legacy_channel c rad -> positive (radius_at (r_P rad)) ->
  channelPenetrability hbar epsilon0 cwf c e = Ok o ->
  exists r p, radius_at (r_P rad) e = Ok r /\ o = Some p /\ (ql (c_numbers c) <= 4)%nat /\
    0 <= k_old C_new A e * r /\ p = P_spec (ql (c_numbers c)) (k_old C_new A e * r).
Proof.
  intros Hc Hr H. unfold channelPenetrability, channelFunction in H.
  assert (Er : r_P (c_radii c) = r_P rad) by (destruct Hc as (? & ? & _ & ->); reflexivity).
  assert (Et : c_type c = Neutron) by (destruct Hc as (? & ? & _ & ->); reflexivity).
  rewrite Er, Et in H. apply bind_Ok in H as (r & E & H). rewrite (channel_k c rad e Hc), (channel_eta c rad e Hc) in H.
  unfold omap in H. apply bind_Ok in H as (p & Ep & H). injection H as <-.
  assert (Hk : 0 <= k_old C_new A e * r).
  { apply Rmult_le_pos; [apply k_old_nonneg; [apply C_new_pos | exact HA]|]. pose proof (Hr e r E); lra. }
  exists r, p. split; [exact E|]. split; [reflexivity|]. cbn [calculatePenetrability] in Ep.
  assert (Hl : (ql (c_numbers c) <= 4)%nat).
  { destruct (le_lt_dec (ql (c_numbers c)) 4); [assumption|].
    destruct (new_unsupported _ (k_old C_new A e * r) l) as (U & _). rewrite U in Ep; discriminate. }
  split; [exact Hl|]. split; [exact Hk|].
  destruct (interfaces_agree (ql (c_numbers c)) _ Hk) as [HP _]. rewrite Ep in HP.
  unfold omap in HP. apply bind_Ok in HP as (ps & Eps & HP). injection HP as <-.
  apply shift_P; assumption.
Qed.

Lemma channel_S c rad e o : legacy_channel c rad -> positive (radius_at (r_S rad)) ->
  channelShiftFactor hbar epsilon0 cwf c e = Ok o ->
  exists r s, radius_at (r_S rad) e = Ok r /\ o = Some s /\
    (0 < k_old C_new A e * r -> s = S_spec (ql (c_numbers c)) (k_old C_new A e * r)).
Proof.
  intros Hc Hr H. unfold channelShiftFactor, channelFunction in H.
  assert (Er : r_S (c_radii c) = r_S rad) by (destruct Hc as (? & ? & _ & ->); reflexivity).
  assert (Et : c_type c = Neutron) by (destruct Hc as (? & ? & _ & ->); reflexivity).
  rewrite Er, Et in H. apply bind_Ok in H as (r & E & H). rewrite (channel_k c rad e Hc), (channel_eta c rad e Hc) in H.
  unfold omap in H. apply bind_Ok in H as (p & Ep & H). injection H as <-.
  exists r, p. split; [exact E|]. split; [reflexivity|]. cbn [calculateShiftFactor] in Ep. intros Hk.
  assert (Hl : (ql (c_numbers c) <= 4)%nat).
  { destruct (le_lt_dec (ql (c_numbers c)) 4); [assumption|].
    destruct (new_unsupported _ (k_old C_new A e * r) l) as (_ & U & _). rewrite U in Ep; discriminate. }
  rewrite shift_code in Ep by assumption. injection Ep as <-. reflexivity.
Qed.

Lemma channel_phi c rad e o : legacy_channel c rad -> positive (radius_at (r_phi rad)) -> e <> 0 ->
  channelPhaseShift hbar epsilon0 cwf c e = Ok o ->
  exists r phi, radius_at (r_phi rad) e = Ok r /\ o = Some phi /\
    is_phase (ql (c_numbers c)) (k_old C_new A e * r) phi.
Proof.
  intros Hc Hr He H. unfold channelPhaseShift, channelFunction in H.
  assert (Er : r_phi (c_radii c) = r_phi rad) by (destruct Hc as (? & ? & _ & ->); reflexivity).
  assert (Et : c_type c = Neutron) by (destruct Hc as (? & ? & _ & ->); reflexivity).
  rewrite Er, Et in H. apply bind_Ok in H as (r & E & H). rewrite (channel_k c rad e Hc), (channel_eta c rad e Hc) in H.
  unfold omap in H. apply bind_Ok in H as (p & Ep & H). injection H as <-.
  exists r, p. split; [exact E|]. split; [reflexivity|]. cbn [calculatePhaseShift] in Ep.
  assert (Hl : (ql (c_numbers c) <= 4)%nat).
  { destruct (le_lt_dec (ql (c_numbers c)) 4); [assumption|].
    destruct (new_unsupported _ (k_old C_new A e * r) l) as (_ & _ & U). rewrite U in Ep; discriminate. }
  destruct (phase_code (ql (c_numbers c)) (k_old C_new A e * r)) as (phi & E' & Hp); [|exact Hl|].
  - apply Rmult_lt_0_compat; [apply k_old_pos; [apply C_new_pos | exact HA | exact He] | apply (Hr e r E)].
  - congruence.
Qed.
End Channel.
