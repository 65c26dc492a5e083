(** The start values at rho = 20 for eta = 5. *)
From Coq Require Import ZArith Reals Lra Lia Psatz.
From Coquelicot Require Import Coquelicot.
From Verif Require Import Outcome CoulombWaveModel CoulombExactModel CoulombRealProofs CoulombMeshProofs CoulombOscillationProofs NewmarkSpec NewmarkErrorProofs IrregularSpec IrregularProofs OscillationCode NewmarkTheorems
  TurningNumbers InwardSpec InwardProofs InwardTheorems InwardCases.
Open Scope R_scope.

Lemma exp_1745 : exp (1745 / 1000) <= 582 / 100.
Proof.
  pose proof (exp_ineq1_le (- (1745 / 128000))) as Q. set (q := exp (- (1745 / 128000))) in *. assert (Q1 : 98636 / 100000 <= q) by lra.
  assert (E : exp (- (1745 / 1000)) = (((((((q ^ 2) ^ 2) ^ 2) ^ 2) ^ 2) ^ 2) ^ 2)) by (unfold q; cbn [pow]; rewrite !Rmult_1_r, <- !exp_plus; f_equal; field).
  assert (P : forall a b, 0 <= a -> a <= b -> a ^ 2 <= b ^ 2) by (intros a b Ha Hab; apply pow_incr; lra).
  pose proof (P (98636 / 100000) _ ltac:(lra) Q1) as Q2. assert (Q2' : 97289 / 100000 <= q ^ 2) by lra. pose proof (P (97289 / 100000) _ ltac:(lra) Q2') as Q3. assert (Q3' : 94651 / 100000 <= (q ^ 2) ^ 2) by lra.
  pose proof (P (94651 / 100000) _ ltac:(lra) Q3') as Q4. assert (Q4' : 89588 / 100000 <= ((q ^ 2) ^ 2) ^ 2) by lra. pose proof (P (89588 / 100000) _ ltac:(lra) Q4') as Q5. set (r := (((q ^ 2) ^ 2) ^ 2) ^ 2) in *. assert (Q5' : 8026 / 10000 <= r) by lra.
  pose proof (P (8026 / 10000) _ ltac:(lra) Q5') as Q6. assert (Q6' : 6441 / 10000 <= r ^ 2) by lra. pose proof (P (6441 / 10000) _ ltac:(lra) Q6') as Q7. assert (Q7' : 4148 / 10000 <= (r ^ 2) ^ 2) by lra. pose proof (P (4148 / 10000) _ ltac:(lra) Q7') as Q8.
  rewrite <- E in Q8. rewrite exp_Ropp in Q8. pose proof (exp_pos (1745 / 1000)) as X. set (x := exp (1745 / 1000)) in *. assert (Y : (4148 / 10000) ^ 2 * x <= 1) by (apply Rle_trans with (/ x * x); [apply Rmult_le_compat_r; lra | rewrite Rinv_l; lra]). lra.
Qed.
Lemma root_half : 7071 / 10000 <= u2 (1 / 2) <= 70711 / 100000.
Proof.
  unfold u2. split; [rewrite <- (sqrt_pow2 (7071 / 10000)) by lra | rewrite <- (sqrt_pow2 (70711 / 100000)) by lra]; apply sqrt_le_1_alt; lra.
Qed.
Lemma lead_half : 410 / 1000 <= lead (1 / 2) <= 542 / 1000.
Proof.
  unfold lead. pose proof root_half as H. set (u := u2 (1 / 2)) in *.
  assert (I : (1 - u) / (1 + u) = / ((1 + u) / (1 - u))) by (field; lra). rewrite I, ln_Rinv by (apply Rdiv_lt_0_compat; lra).
  assert (R : 582 / 100 <= (1 + u) / (1 - u) <= 584 / 100) by (split; [apply (Rmult_le_reg_r (1 - u)) | apply (Rmult_le_reg_r (1 - u))]; try lra; unfold Rdiv at 2; rewrite ?Rmult_assoc, ?Rinv_l by lra; unfold Rdiv; rewrite ?Rmult_assoc, ?Rinv_l by lra; lra).
  assert (L : 1745 / 1000 <= ln ((1 + u) / (1 - u)) <= 2).
  { apply ln_between; [pose proof exp_1745; lra|]. replace 2 with (1 + 1) by ring. rewrite exp_plus. assert (5 / 2 <= exp 1).
    { pose proof (exp_ineq1_le (1 / 8)) as Q. set (q := exp (1 / 8)) in *. assert (E : exp 1 = (q * q) * (q * q) * ((q * q) * (q * q))) by (unfold q; rewrite <- !exp_plus; f_equal; field).
      assert (Q2 : 81 / 64 <= q * q) by nra. set (r := q * q) in *. assert (Q4 : 8 / 5 <= r * r) by nra. set (v := r * r) in *. rewrite E. nra. }
    nra. }
  lra.
Qed.
Lemma angle_five : 3 * (PI / 2) + 1 / 10 <= fai 5 (1 / 10) (1 / 2) <= 2 * PI - 8 / 100.
Proof.
  unfold fai. pose proof lead_half as L. set (l := lead (1 / 2)) in *. pose proof pi_bounds as P.
  assert (V : v0 (1 / 10) (1 / 2) = 8 / 100) by (unfold v0, u1; field). rewrite V.
  assert (S : 28 / 100 <= sqrt (8 / 100) <= 29 / 100) by (split; [rewrite <- (sqrt_pow2 (28 / 100)) by lra | rewrite <- (sqrt_pow2 (29 / 100)) by lra]; apply sqrt_le_1_alt; lra).
  set (s := sqrt (8 / 100)) in *. assert (A : - (1 / 10) <= a1 (1 / 2) + 8 / 100 * (a2 (1 / 2) + 8 / 100 * a3 (1 / 2)) <= - (8 / 100)) by (unfold a1, a2, a3; lra).
  set (a := a1 (1 / 2) + _) in *. assert (B : - (29 / 1000) <= s * a <= - (224 / 10000)) by nra. assert (Q : 785 / 1000 <= (@PI_4 real : R) <= 786 / 1000) by (unfold PI_4; cbn [dec real]; unfold real_dec; cbn [Z.ltb Z.compare Z.leb Z.opp]; change (10 ^ 21)%Z with 1000000000000000000000%Z; lra). lra.
Qed.
Lemma sin_small x : 8 / 100 <= x <= PI / 2 -> 79 / 1000 <= sin x.
Proof.
  intros H. pose proof pi_bounds as P. apply Rle_trans with (sin (8 / 100)).
  - destruct (SIN (8 / 100) ltac:(lra) ltac:(lra)) as [S _]. eapply Rle_trans; [|exact S]. unfold sin_lb, sin_approx, sin_term. cbn [sum_f_R0 pow Nat.mul Nat.add fact INR]. lra.
  - apply sin_incr_1; lra.
Qed.
Lemma sides_five : 79 / 1000 <= cos (fai 5 (1 / 10) (1 / 2)) <= 1 /\ sin (fai 5 (1 / 10) (1 / 2)) <= - (79 / 1000).
Proof.
  pose proof angle_five as H. pose proof pi_bounds as P. set (t := fai _ _ _) in *. pose proof (COS_bound t) as C.
  pose proof (sin_small (t - 3 * (PI / 2)) ltac:(lra)) as A. pose proof (sin_small (2 * PI - t) ltac:(lra)) as B.
  replace (t - 3 * (PI / 2)) with (PI / 2 - (2 * PI - t)) in A by field. rewrite sin_shift in A. rewrite cos_minus, cos_2PI, sin_2PI in A. rewrite sin_minus, cos_2PI, sin_2PI in B. lra.
Qed.
Lemma modulus_five : 1 <= mm (1 / 10) (1 / 2).
Proof.
  unfold mm. pose proof root_half as H. set (u := u2 (1 / 2)) in *. assert (S : 0 < sqrt u <= 85 / 100) by (split; [apply sqrt_lt_R0; lra | rewrite <- (sqrt_pow2 (85 / 100)) by lra; apply sqrt_le_1_alt; lra]).
  assert (I : 117 / 100 <= 1 / sqrt u) by (apply (Rmult_le_reg_r (sqrt u)); [lra|]; unfold Rdiv at 2; rewrite Rmult_assoc, Rinv_l by lra; lra).
  assert (Q : - (1 / 100) <= psi (1 / 10) (1 / 2)) by (unfold psi, w0; replace (v0 (1 / 10) (1 / 2)) with (8 / 100) by (unfold v0, u1; field); unfold b1, b2, b3; lra).
  pose proof (exp_ineq1_le (psi (1 / 10) (1 / 2))). nra.
Qed.
Lemma values_five : exists p0 p1, omGcase4 exact (Fin 20) (Fin 5) = (Fin p0, Fin p1) /\ 79 / 1000 <= p0 /\ 4 / 100 <= p1.
Proof.
  rewrite (case4_lift 20 5) by lra. unfold lifted. pose proof (case4_real 20 5) as E. cbv zeta in E. rewrite E. clear E. cbn [fst snd]. replace (2 * 5 / 20) with (1 / 2) by field. replace (1 / (2 * 5)) with (1 / 10) by field.
  destruct sides_five as [C S]. pose proof modulus_five as M. set (c := cos _) in *. set (s := sin _) in *. set (m := mm _ _) in *.
  assert (V : v0 (1 / 10) (1 / 2) = 8 / 100) by (unfold v0, u1; field).
  assert (A : 27 / 10 <= aa (1 / 10) (1 / 2)) by (unfold aa, w0; rewrite V; pose proof root_half as H; set (u := u2 (1 / 2)) in *; unfold e1, e2, e3; lra).
  assert (B : 0 <= bb (1 / 10) (1 / 2) <= 5 / 100) by (unfold bb, sigma, w0; rewrite V; unfold u1, h1, h2, h3; lra).
  set (a := aa _ _) in *. set (b := bb _ _) in *. do 2 eexists. split; [reflexivity|]. split; [nra|].
  assert (X : a * s + b * c <= - (16 / 100)) by nra. replace (- (1 / 2) * (1 / 2) * (a * m * s + b * (m * c))) with (- (1 / 4) * (m * (a * s + b * c))) by field. nra.
Qed.
Lemma start_five G G1 : irregular 5 G G1 -> / 1000 < Rabs (G 20) /\ / 100 < Rabs (G1 20).
Proof.
  intros I. destruct values_five as (p0 & p1 & E & A & B). destruct (oscillation_code 5 20 (Fin 0) G G1 ltac:(lra) ltac:(lra) I) as (g & g1 & F & Q0 & Q1).
  rewrite asymptotic_oscillation in F by lra. apply Ok_inj in F. rewrite E in F. apply (f_equal (fun p => (match fst p with Fin x => x | _ => 0 end, match snd p with Fin x => x | _ => 0 end))) in F. cbn [fst snd] in F. injection F as <- <-.
  apply le_abs in Q0. apply le_abs in Q1. split; rewrite Rabs_pos_eq; lra.
Qed.
(** From 20 to 11, with bounds of the irregular function *)
Lemma five_inward : exists G G1 U, irregular 5 G G1 /\ / 1000 < Rabs (G 20) /\ / 100 < Rabs (G1 20) /\ limits 5 11 20 1 U G G1.
Proof.
  destruct (irregular_exists 5) as (G & G1 & I); [lra|]. destruct (NewmarkTheorems.solution_bounded 5 11 20 G G1 ltac:(lra) (irregular_solution 5 G G1 11 20 ltac:(lra) I)) as [U HU].
  exists G, G1, U. destruct (start_five G G1 I). split; [exact I|]. split; [assumption|]. split; [assumption|]. split; [lra | lra | exact HU].
Qed.
