From Coq Require Import String List ZArith Lia Reals Lra Psatz.
From Verif Require Import Outcome HardSphereModel HardSphereSpec HardSphereProofs KinematicsModel KinematicsProofs CoulombModel.
Import ListNotations.
Open Scope R_scope.

(** ** Coulomb phase shift *)

(** As documented: the sum of arctangents. *)
Definition coulomb_phase_documented (l : nat) (eta : R) : R :=
  fold_right Rplus 0 (map (fun n => atan (eta / INR n)) (seq 1 l)).

Lemma fold_plus_app a b : fold_right Rplus 0 (a ++ b) = fold_right Rplus 0 a + fold_right Rplus 0 b.
Proof. induction a as [|x a IH]; cbn; [lra|rewrite IH; lra]. Qed.

Lemma documented_succ l eta : coulomb_phase_documented (S l) eta = coulomb_phase_documented l eta + atan (eta / INR (S l)).
Proof.
  unfold coulomb_phase_documented. rewrite seq_S, map_app, fold_plus_app. cbn [map fold_right].
  rewrite Rplus_0_r. reflexivity.
Qed.

(** What the code computes: a sum of cotangents, larger than the documented value for every
    l > 0 and every eta in (0, pi/4]. *)
Lemma tan_small x : 0 < x -> x <= PI / 4 -> 0 < tan x <= 1.
Proof.
  intros H1 H2. pose proof PI_RGT_0 as HP. split.
  - apply tan_gt_0; lra.
  - rewrite <- tan_PI4. destruct (Rle_lt_or_eq_dec _ _ H2) as [H|H].
    + apply Rlt_le, tan_increasing; lra.
    + rewrite H. lra.
Qed.

Lemma coulomb_phase_exceeds l eta : 0 < eta -> eta <= PI / 4 ->
  exists w, coulombPhaseShift_charged l eta = Some w /\
    INR l * (1 - PI / 4) <= w - coulomb_phase_documented l eta.
Proof.
  intros H1 H2. induction l as [|l (w & E & IH)].
  - exists 0. split; [reflexivity|]. unfold coulomb_phase_documented; cbn. lra.
  - cbn [coulombPhaseShift_charged]. rewrite E.
    assert (Hn : 1 <= INR (S l)) by (rewrite S_INR; pose proof (pos_INR l); lra).
    assert (Hx : 0 < eta / INR (S l) <= eta).
    { split; [apply Rdiv_lt_0_compat; lra|].
      apply Rmult_le_reg_r with (INR (S l)); [lra|]. unfold Rdiv. rewrite Rmult_assoc, Rinv_l by lra. nra. }
    destruct (tan_small (eta / INR (S l))) as [T1 T2]; [lra|lra|].
    rewrite fdiv_some by lra. eexists; split; [reflexivity|].
    rewrite documented_succ.
    assert (Hcot : 1 <= 1 / tan (eta / INR (S l))).
    { apply Rmult_le_reg_r with (tan (eta / INR (S l))); [lra|]. unfold Rdiv. rewrite Rmult_assoc, Rinv_l by lra. lra. }
    assert (Hat : atan (eta / INR (S l)) <= PI / 4).
    { rewrite <- atan_1. pose proof PI_4 as HP4.
      destruct (Rle_lt_or_eq_dec (eta / INR (S l)) 1) as [H|H]; [lra|apply Rlt_le, atan_increasing, H|rewrite H; lra]. }
    rewrite (S_INR l) at 1. lra.
Qed.

Lemma coulomb_phase_refuted : exists l eta w, 0 < eta /\ coulombPhaseShift_charged l eta = Some w /\
  w <> coulomb_phase_documented l eta.
Proof.
  assert (HP : 0 < PI / 4) by (pose proof PI_RGT_0; lra).
  assert (HP1 : PI / 4 < 1).
  { destruct (PI_ineq 1) as [_ H]. unfold tg_alt, PI_tg in H. simpl in H. lra. }
  destruct (coulomb_phase_exceeds 1 (PI / 4) HP (Rle_refl _)) as (w & E & H).
  exists 1%nat, (PI / 4), w. split; [exact HP|]. split; [exact E|]. cbn [INR] in H. lra.
Qed.

Lemma coulomb_phase_zero eta : coulombPhaseShift_charged 0 eta = Some 0.
Proof. reflexivity. Qed.

(** A vanishing Sommerfeld parameter makes the shift infinite instead of zero. *)
Lemma coulomb_phase_neutral l : (0 < l)%nat -> coulombPhaseShift_charged l 0 = None.
Proof.
  destruct l as [|l]; [lia|]. intros _. cbn [coulombPhaseShift_charged].
  destruct (coulombPhaseShift_charged l 0); [|reflexivity].
  replace (0 / INR (S l)) with 0 by (unfold Rdiv; ring). rewrite tan_0. unfold fdiv.
  destruct (Req_EM_T 0 0) as [_|n]; [reflexivity|exfalso; apply n; reflexivity].
Qed.

(** ** Phase shift from G and F *)

Lemma phase_charged_cos w : cF w <> 0 \/ cG w <> 0 ->
  let r := sqrt (cF w * cF w + cG w * cG w) in
  cG w = r * cos (phase_charged w) /\ Rabs (cF w) = r * sin (phase_charged w).
Proof.
  intros H r. unfold phase_charged. fold r.
  assert (Hpos : 0 < cF w * cF w + cG w * cG w) by (destruct H; nra).
  assert (Hr : 0 < r) by (apply sqrt_lt_R0, Hpos).
  assert (Hr2 : r * r = cF w * cF w + cG w * cG w) by (apply sqrt_sqrt; lra).
  assert (Hv : (if Req_EM_T (cF w) 0 then if Req_EM_T (cG w) 0 then 0 else acos (cG w / r) else acos (cG w / r)) = acos (cG w / r)).
  { destruct (Req_EM_T (cF w) 0) as [E|]; [|reflexivity]. destruct (Req_EM_T (cG w) 0) as [E'|]; [|reflexivity].
    exfalso. destruct H; contradiction. }
  rewrite Hv.
  assert (Hq : (cG w / r) * (cG w / r) <= 1).
  { replace (cG w / r * (cG w / r)) with (cG w * cG w / (r * r)) by (field; lra). rewrite Hr2.
    apply Rmult_le_reg_r with (cF w * cF w + cG w * cG w); [lra|]. unfold Rdiv. rewrite Rmult_assoc, Rinv_l by lra. nra. }
  assert (Hb : -1 <= cG w / r <= 1) by nra.
  split.
  - rewrite cos_acos by exact Hb. field. lra.
  - rewrite sin_acos by exact Hb. unfold Rsqr.
    replace (1 - cG w / r * (cG w / r)) with ((cF w / r) * (cF w / r)).
    + rewrite <- (Rabs_right r) at 1 by lra. replace (cF w / r * (cF w / r)) with (Rsqr (cF w / r)) by reflexivity.
      rewrite sqrt_Rsqr_abs, <- Rabs_mult. f_equal. field. lra.
    + replace (cG w / r * (cG w / r)) with (cG w * cG w / (r * r)) by (field; lra).
      replace (cF w / r * (cF w / r)) with (cF w * cF w / (r * r)) by (field; lra). rewrite Hr2. field. lra.
Qed.

(** For F >= 0 the phase is the argument of G + iF. *)
Lemma phase_charged_arg w : 0 <= cF w -> cF w <> 0 \/ cG w <> 0 ->
  let r := sqrt (cF w * cF w + cG w * cG w) in
  cG w = r * cos (phase_charged w) /\ cF w = r * sin (phase_charged w).
Proof.
  intros HF H r. destruct (phase_charged_cos w H) as [H1 H2]. fold r in H1, H2.
  split; [exact H1|]. rewrite <- H2, Rabs_right; lra.
Qed.

(** For F < 0 it has the wrong sign: sin(2 phi) is minus what exp(-2 i phi) needs. *)
Lemma phase_charged_sign w : cF w < 0 ->
  sin (2 * phase_charged w) = - (2 * cF w * cG w / (cF w * cF w + cG w * cG w)).
Proof.
  intros HF. destruct (phase_charged_cos w (or_introl (Rlt_not_eq _ _ HF))) as [H1 H2].
  set (r := sqrt (cF w * cF w + cG w * cG w)) in *.
  assert (Hpos : 0 < cF w * cF w + cG w * cG w) by nra.
  assert (Hr : 0 < r) by (apply sqrt_lt_R0, Hpos).
  assert (Hr2 : r * r = cF w * cF w + cG w * cG w) by (apply sqrt_sqrt; lra).
  rewrite Rabs_left in H2 by lra. rewrite <- Hr2, sin_2a.
  replace (sin (phase_charged w)) with (- cF w / r) by (rewrite H2; field; lra).
  replace (cos (phase_charged w)) with (cG w / r) by (rewrite H1 at 1; field; lra).
  field. lra.
Qed.

Lemma phase_charged_refuted : exists w,
  sin (2 * phase_charged w) <> 2 * cF w * cG w / (cF w * cF w + cG w * cG w).
Proof.
  exists (mkCoulomb 1 (-1) 0 0). rewrite phase_charged_sign by (cbn; lra). cbn. lra.
Qed.

(** The case is not exotic: a neutral wave with pi < rho < 2 pi has F = sin rho < 0. *)
Lemma phase_charged_wrong_wave rho : PI < rho < 2 * PI -> cos rho <> 0 ->
  let w := mkCoulomb (waveG 0 rho) (waveF 0 rho) (dG 0 rho) (dF 0 rho) in
  ~ is_phase 0 rho (phase_charged w).
Proof.
  intros Hr Hc w Hp. apply is_phase_double in Hp. destruct Hp as [_ Hs].
  assert (HF : cF w < 0).
  { unfold w, waveF; cbn. apply sin_lt_0; lra. }
  rewrite (phase_charged_sign w HF) in Hs. unfold w in *; cbn [cF cG] in *.
  unfold amplitude2 in Hs. replace (waveF 0 rho ^ 2 + waveG 0 rho ^ 2) with (waveF 0 rho * waveF 0 rho + waveG 0 rho * waveG 0 rho) in Hs by ring.
  unfold waveF, waveG in *; cbn in *.
  pose proof (sin2_cos2 rho) as E. unfold Rsqr in E. rewrite E in Hs.
  assert (H0 : sin rho * cos rho = 0) by lra. apply Rmult_integral in H0. destruct H0; [lra|contradiction].
Qed.

(** Penetrability and shift factor are right for any wave: with the free waves they are the
    hard-sphere values. *)
Lemma charged_free l rho : 
  let w := mkCoulomb (waveG l rho) (waveF l rho) (dG l rho) (dF l rho) in
  penetrability_charged w rho = P_spec l rho /\ shift_charged w rho = S_spec l rho.
Proof.
  intros w. pose proof (amplitude2_pos l rho) as HA.
  assert (E : cF w * cF w + cG w * cG w = amplitude2 l rho) by (unfold w, amplitude2; cbn; ring).
  assert (HZ : ~ (cF w = 0 /\ cG w = 0)) by (intros [E1 E2]; rewrite E1, E2 in E; lra).
  unfold penetrability_charged, shift_charged, P_spec, S_spec.
  destruct (Req_EM_T (cF w) 0) as [E1|]; [destruct (Req_EM_T (cG w) 0) as [E2|]; [exfalso; auto|]|];
    rewrite E; (split; [reflexivity|]); unfold w; cbn; field; lra.
Qed.

Lemma penetrability_charged_nonneg w rho : 0 <= rho -> 0 <= penetrability_charged w rho.
Proof.
  intros Hr. unfold penetrability_charged.
  assert (H : cF w <> 0 \/ cG w <> 0 -> 0 <= rho / (cF w * cF w + cG w * cG w)).
  { intros H. assert (0 < cF w * cF w + cG w * cG w) by (destruct H; nra).
    apply Rmult_le_pos; [exact Hr|apply Rlt_le, Rinv_0_lt_compat; assumption]. }
  destruct (Req_EM_T (cF w) 0) as [E1|]; [destruct (Req_EM_T (cG w) 0) as [E2|]|]; auto. lra.
Qed.
