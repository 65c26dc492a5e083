(** The computed fluctuation integrals against the sums of the rules and against the averages
    over chi-square distributions. *)
From Coq Require Import String List ZArith Reals Lra Lia Bool.
From Flocq Require Import Core.Core IEEE754.BinarySingleNaN.
From Verif Require Import Outcome QuantumModel QuantumSpec KinematicsModel UnresolvedModel UnresolvedSpec UnresolvedProofs UnresolvedTheorems
  DoubleModel DoubleProofs RoundingModel RoundingProofs FluctuationRoundingModel FluctuationRoundingSpec FluctuationRoundingProofs FluctuationLiteralProofs FluctuationRoundingTheorems.
From Verif Require Import FluctuationSpec FluctuationSystem.
Import ListNotations.
Open Scope R_scope.

Lemma sum_rounded n x r : (n <= 1000)%nat -> partial_sum n x r -> rounded x r.
Proof.
  intros L [(F & P & V1 & V2) _]. split; [exact F|]. pose proof (bernoulli (20 + n)) as B1. pose proof (up_many (20 + n) ltac:(lia)) as B2.
  rewrite plus_INR in B1, B2. replace (INR 20) with 20 in * by (rewrite INR_IZR_INZ; f_equal). pose proof (thousand n L). pose proof (pos_INR n). pose proof u_value as U.
  assert (E : 1001 / 1000 * (20 + INR n) * u <= 1.2e-13) by (rewrite U; lra). assert (E' : (20 + INR n) * u <= 1.2e-13) by (rewrite U; lra).
  apply Rabs_le. split.
  - assert (r * (1 - 1.2e-13) <= r * (1 - u) ^ (20 + n)) by (apply Rmult_le_compat_l; lra). lra.
  - assert (r * (1 + u) ^ (20 + n) <= r * (1 + 1.2e-13)) by (apply Rmult_le_compat_l; lra). lra.
Qed.
Lemma or_zero_usable G n : ordinary_or_zero G -> (B2R G <> 0 -> (n <= 4)%nat) -> usable G n.
Proof. intros [(F & E) | O] H; split; [exact F | intros N; contradiction | apply O | intros N; split; [exact O | exact (H N)]]. Qed.
Lemma or_zero_nonneg G : ordinary_or_zero G -> 0 <= B2R G.
Proof. intros [(_ & ->) | (_ & B & _)]; [lra|]. pose proof (bpow_ge_0 radix2 (-200)). lra. Qed.
Lemma ordinary_pos G : ordinary G -> 0 < B2R G.
Proof. intros (_ & B & _). pose proof (bpow_gt_0 radix2 (-200)). lra. Qed.
Lemma rounded_zero x : rounded x 0 -> B2R x = 0.
Proof. intros [_ H]. apply Rabs_le_inv in H. lra. Qed.

Section Widths.
Variables (w : data double) (d : data nat).
Hypothesis He : ordinary (d_elastic w).
Hypothesis Hc : ordinary_or_zero (d_capture w).
Hypothesis Hf : ordinary_or_zero (d_fission w).
Hypothesis Hx : ordinary_or_zero (d_competition w).
Hypothesis De : (1 <= d_elastic d <= 4)%nat.
Hypothesis Df : B2R (d_fission w) <> 0 -> (d_fission d <= 4)%nat.
Hypothesis Dx : B2R (d_competition w) <> 0 -> (d_competition d <= 4)%nat.
Let Gn := B2R (d_elastic w).
Let Gg := B2R (d_capture w).
Let Gf := B2R (d_fission w).
Let Gx := B2R (d_competition w).
Let v : data R := mkData Gn Gg Gf Gx.

Lemma computed : exists x i, fluctuationIntegrals64 w d = Ok x /\ calculateFluctuationIntegrals v d = Ok (Some i) /\
  rounded (d_elastic x) (d_elastic i) /\ rounded (d_capture x) (d_capture i) /\ rounded (d_fission x) (d_fission i) /\ rounded (d_competition x) (d_competition i).
Proof.
  destruct (integrals_near w d He Hc De (or_zero_usable _ _ Hf Df) (or_zero_usable _ _ Hx Dx)) as (x & i & n & L & E1 & E2 & S1 & S2 & S3 & S4).
  exists x, i. split; [exact E1|]. split; [exact E2|]. split; [|split; [|split]]; apply (sum_rounded n); assumption.
Qed.
Lemma not_zero_real (G : R) n : (G <> 0 -> (n <= 4)%nat) -> nonzero G = true -> (n <= 4)%nat.
Proof. intros H N. apply H. intros Z. apply nonzero_0 in Z. rewrite Z in N. discriminate. Qed.

Lemma integrals_rounded :
  let rn := chi2_rule (d_elastic d) in let rf := width_rule Gf (Nat.max 1 (d_fission d)) in let rx := width_rule Gx (Nat.max 1 (d_competition d)) in
  exists x, fluctuationIntegrals64 w d = Ok x /\
    rounded (d_elastic x) (I_elastic Gn Gg Gf Gx rn rf rx) /\ rounded (d_capture x) (I_capture Gn Gg Gf Gx rn rf rx) /\
    (Gf <> 0 -> rounded (d_fission x) (I_fission Gn Gg Gf Gx rn rf rx)) /\ (Gf = 0 -> B2R (d_fission x) = 0) /\
    (Gx <> 0 -> rounded (d_competition x) (I_competition Gn Gg Gf Gx rn rf rx)) /\ (Gx = 0 -> B2R (d_competition x) = 0).
Proof.
  intros rn rf rx. destruct computed as (x & i & E1 & E2 & R1 & R2 & R3 & R4). exists x. split; [exact E1|].
  destruct (integrals_value_spec v d De (not_zero_real Gf _ Df) (not_zero_real Gx _ Dx)) as [(_ & E) | (_ & i' & E & V1 & V2 & V3 & V3' & V4 & V4')]; [congruence|].
  assert (i' = i) by congruence. subst i'. rewrite !width_rule_max in *. fold rn in V1, V2, V3, V4.
  cbn [d_elastic d_capture d_fission d_competition v] in V1, V2, V3, V3', V4, V4'. fold rf rx in V1, V2, V3, V4.
  rewrite <- V1, <- V2. split; [exact R1|]. split; [exact R2|]. split; [intros N; rewrite <- (V3 N); exact R3|]. split; [intros Z; rewrite (V3' Z) in R3; apply rounded_zero, R3|].
  split; [intros N; rewrite <- (V4 N); exact R4|]. intros Z; rewrite (V4' Z) in R4; apply rounded_zero, R4.
Qed.

Lemma combine G g i e a : 0 <= G -> 0 <= i -> G * i <= 1.05 -> rounded g i -> Rabs (G * i - e) <= a -> Rabs (G * B2R g - e) <= a + 1.3e-13.
Proof.
  intros PG Pi B [_ H] E. replace (G * B2R g - e) with (G * (B2R g - i) + (G * i - e)) by ring.
  eapply Rle_trans; [apply Rabs_triang|]. rewrite Rabs_mult, (Rabs_pos_eq G) by exact PG.
  assert (G * Rabs (B2R g - i) <= G * (1.2e-13 * i)) by (apply Rmult_le_compat_l; assumption). lra.
Qed.
Lemma integrals_accurate64 :
  let df := Nat.max 1 (d_fission d) in let dx := Nat.max 1 (d_competition d) in
  let a := allowed_error Gf Gx (d_elastic d) df dx + 1.3e-13 in
  exists g e c f x, fluctuationIntegrals64 w d = Ok g /\ exact Gn Gg Gf Gx (d_elastic d) df dx e c f x /\ e + c + f + x = 1 /\
    is_finite (d_elastic g) = true /\ is_finite (d_capture g) = true /\ is_finite (d_fission g) = true /\ is_finite (d_competition g) = true /\
    Rabs (Gn * B2R (d_elastic g) - e) <= a /\ Rabs (Gg * B2R (d_capture g) - c) <= a /\
    Rabs (Gf * B2R (d_fission g) - f) <= a /\ Rabs (Gx * B2R (d_competition g) - x) <= a.
Proof.
  intros df dx a. destruct computed as (g & i & E1 & E2 & R1 & R2 & R3 & R4).
  pose proof (ordinary_pos _ He) as P1. pose proof (or_zero_nonneg _ Hc) as P2. pose proof (or_zero_nonneg _ Hf) as P3. pose proof (or_zero_nonneg _ Hx) as P4. fold Gn in P1. fold Gg in P2. fold Gf in P3. fold Gx in P4.
  destruct (integrals_accurate v d De Df Dx P1 P2 P3 P4) as (i' & e & c & f & x & E & EX & S & B1 & B2 & B3 & B4). assert (i' = i) by congruence. subst i'.
  pose proof (integrals_nonneg v d De (not_zero_real Gf _ Df) (not_zero_real Gx _ Dx) i (Rlt_le _ _ P1) P2 P3 P4 E) as (N1 & N2 & N3 & N4).
  pose proof (integrals_conserved_close v d i De (not_zero_real Gf _ Df) (not_zero_real Gx _ Dx) E) as C. apply Rabs_le_inv in C.
  cbn [d_elastic d_capture d_fission d_competition v] in *.
  pose proof (Rmult_le_pos _ _ (Rlt_le _ _ P1) N1). pose proof (Rmult_le_pos _ _ P2 N2). pose proof (Rmult_le_pos _ _ P3 N3). pose proof (Rmult_le_pos _ _ P4 N4).
  exists g, e, c, f, x. split; [exact E1|]. split; [exact EX|]. split; [exact S|].
  split; [apply R1|]. split; [apply R2|]. split; [apply R3|]. split; [apply R4|].
  split; [|split; [|split]].
  - apply (combine Gn _ (d_elastic i)); [lra | exact N1 | lra | exact R1 | exact B1].
  - apply (combine Gg _ (d_capture i)); [lra | exact N2 | lra | exact R2 | exact B2].
  - apply (combine Gf _ (d_fission i)); [lra | exact N3 | lra | exact R3 | exact B3].
  - apply (combine Gx _ (d_competition i)); [lra | exact N4 | lra | exact R4 | exact B4].
Qed.
End Widths.

(** * Cases *)
Lemma ordinary_case z : (1 <= z <= 65536)%Z -> ordinary (double_of z).
Proof.
  intros H. destruct (near_Z z H) as (F & B & V). cbn [pow] in V. rewrite !Rmult_1_r in V. split; [exact F|]. replace (B2R (double_of z)) with (IZR z) by lra.
  pose proof (bpow_le radix2 (-200) 0 ltac:(lia)). pose proof (bpow_le radix2 16 200 ltac:(lia)). lra.
Qed.
(** The smallest positive double as neutron width *)
Lemma overflow : let w := mkData (literal (1, -1074)%Z) (double_of 0) (double_of 0) (double_of 0) in
  is_finite (d_elastic w) = true /\ 0 < B2R (d_elastic w) /\ exists x, fluctuationIntegrals64 w (mkData 1 0 0 0)%nat = Ok x /\ is_finite (d_elastic x) = false.
Proof.
  cbv zeta. split; [reflexivity|]. split.
  - assert (E : Bcompare (double_of 0) (literal (1, -1074)%Z) = Some Lt) by reflexivity. rewrite Bcompare_correct in E by reflexivity. injection E as E. apply Rcompare_Lt_inv in E.
    exact E.
  - eexists. split; [vm_compute; reflexivity | reflexivity].
Qed.
Lemma overflow_case64 : exists w d x, is_finite (d_elastic w) = true /\ 0 < B2R (d_elastic w) /\
  ordinary_or_zero (d_capture w) /\ ordinary_or_zero (d_fission w) /\ ordinary_or_zero (d_competition w) /\ (1 <= d_elastic d <= 4)%nat /\
  fluctuationIntegrals64 w d = Ok x /\ is_finite (d_elastic x) = false.
Proof.
  destruct overflow as (A & B & x & C & D). eexists. exists (mkData 1 0 0 0)%nat, x. split; [exact A|]. split; [exact B|].
  assert (Z : ordinary_or_zero (double_of 0)) by (left; exact zero64). split; [exact Z|]. split; [exact Z|]. split; [exact Z|]. split; [cbn; lia|]. split; [exact C | exact D].
Qed.
Lemma double_small z : (1 <= z <= 65536)%Z -> B2R (double_of z) = IZR z.
Proof. intros H. destruct (near_Z z H) as (F & B & V). cbn [pow] in V. lra. Qed.
Lemma one_error x r : about 1 x r -> is_finite x = true /\ Rabs (B2R x - r) <= bpow radix2 (-53) * r.
Proof. intros (F & P & V). split; [exact F|]. fold u. cbn [pow] in V. apply Rabs_le. lra. Qed.
Lemma tables_rounded n : (1 <= n <= 4)%nat -> Forall2 (fun i p => exists w q,
    entry64 weight_literals i (Z.of_nat n - 1) = Ok w /\ is_finite w = true /\ Rabs (B2R w - fst p) <= bpow radix2 (-53) * fst p /\
    entry64 node_literals i (Z.of_nat n - 1) = Ok q /\ is_finite q = true /\ Rabs (B2R q - snd p) <= bpow radix2 (-53) * snd p)
  (seq 0 10) (chi2_rule n).
Proof.
  intros Hn. pose proof (tables64 n Hn) as T. change (seq 0 10) with ten. revert T. generalize ten, (chi2_rule n). intros l r T.
  induction T as [|i p l r (w & q & E1 & N1 & E2 & N2) T IH]; constructor; [|exact IH].
  assert (C : unsigned_pred n = (Z.of_nat n - 1)%Z) by (unfold unsigned_pred; apply Z.mod_small; lia). rewrite C in E1, E2.
  exists w, q. split; [exact E1|]. destruct (one_error _ _ (near0_about _ _ _ _ _ N1)) as [F1 B1]. destruct (one_error _ _ (near_about _ _ _ _ _ N2)) as [F2 B2]. auto 10.
Qed.
