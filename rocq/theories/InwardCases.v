(** The integration from rho = 12 to rho = 6 for eta = 1. *)
From Coq Require Import ZArith Reals Lra Lia Psatz.
From Coquelicot Require Import Coquelicot.
From Verif Require Import Outcome CoulombWaveModel CoulombExactModel NewmarkSpec NewmarkErrorProofs AsymptoticSpec SigmaSpec SigmaProofs SigmaTheorems IrregularSpec IrregularProofs IrregularFar IrregularCode IrregularCases
  PhaseRoundingCases TurningNumbers InwardSpec InwardProofs InwardTheorems.
Open Scope R_scope.

Lemma ln_between x a b : exp a <= x -> x <= exp b -> a <= ln x <= b.
Proof.
  intros H1 H2. pose proof (exp_pos a). assert (0 < x) by lra. split; [rewrite <- (ln_exp a) | rewrite <- (ln_exp b)]; apply ln_le; lra.
Qed.
Lemma log_range : 3 <= ln (576 / 17) <= 4.
Proof.
  apply ln_between.
  - replace 3 with (1 + 1 + 1) by ring. rewrite !exp_plus. pose proof exp_le_3. pose proof (exp_pos 1). nra.
  - replace 4 with (1 + 1 + (1 + 1)) by ring. rewrite !exp_plus. assert (5 / 2 <= exp 1).
    { pose proof (exp_ineq1_le (1 / 8)) as Q. set (q := exp (1 / 8)) in *. assert (E : exp 1 = (q * q) * (q * q) * ((q * q) * (q * q))) by (unfold q; rewrite <- !exp_plus; f_equal; field).
      assert (Q2 : 81 / 64 <= q * q) by nra. set (r := q * q) in *. assert (Q4 : 8 / 5 <= r * r) by nra. set (v := r * r) in *. rewrite E. nra. }
    set (e := exp 1) in *. assert (25 / 4 <= e * e) by nra. nra.
Qed.
Lemma phase_range sigma : coulomb_phase 1 sigma -> 8194 / 1000 <= theta 1 sigma 12 <= 8920 / 1000.
Proof.
  intros Hs. destruct (phase_exists 1) as (sigma' & Hs' & B). assert (sigma = sigma') as <-.
  { unfold coulomb_phase in *. apply is_lim_seq_unique in Hs, Hs'. rewrite Hs in Hs'. injection Hs' as E. exact E. }
  rewrite partial_code in B. replace (16 + 1 * 1) with 17 in B by ring. 
  pose proof log_range as Lg. rewrite ln_div in Lg by lra. assert (E576 : ln 576 = 2 * ln 24) by (replace 576 with (24 * 24) by ring; rewrite ln_mult by lra; ring). rewrite E576 in Lg.
  pose proof (atan_cubic (1 / 4) ltac:(lra)) as A4. pose proof (atan_cubic (1 / 2) ltac:(lra)) as A2. pose proof (atan_cubic (1 / 3) ltac:(lra)) as A3. rewrite atan_1 in B. pose proof pi_bounds as P.
  unfold theta. replace (2 * 12) with 24 by ring. assert (K : / 1512 * / 4 ^ 7 <= / 1000000) by lra. assert (B' := Rle_trans _ _ _ B K). apply le_abs in B'. lra.
Qed.
Lemma sin_quarter x : 1 / 3 <= x <= PI / 2 -> 1 / 4 <= sin x.
Proof.
  intros H. pose proof pi_bounds as P. apply Rle_trans with (sin (1 / 3)).
  - destruct (SIN (1 / 3) ltac:(lra) ltac:(lra)) as [S _]. eapply Rle_trans; [|exact S]. unfold sin_lb, sin_approx, sin_term. cbn [sum_f_R0 pow Nat.mul Nat.add fact INR]. lra.
  - apply sin_incr_1; lra.
Qed.
Lemma start_range sigma : coulomb_phase 1 sigma -> cos (theta 1 sigma 12) <= - (1 / 4) /\ 1 / 4 <= sin (theta 1 sigma 12).
Proof.
  intros Hs. pose proof (phase_range sigma Hs) as T. pose proof pi_bounds as P. set (t := theta 1 sigma 12) in *.
  assert (E : t = (t - 5 * (PI / 2)) + PI / 2 + 2 * INR 1 * PI) by (cbn [INR]; field). rewrite E, cos_period, sin_period. clear E.
  rewrite cos_plus, sin_plus, cos_PI2, sin_PI2, !Rmult_0_r, !Rmult_1_r, Rplus_0_l. set (p := t - 5 * (PI / 2)) in *.
  pose proof (sin_quarter p ltac:(unfold p; lra)). pose proof (sin_quarter (PI / 2 - p) ltac:(unfold p; lra)) as C. rewrite sin_shift in C. lra.
Qed.
Lemma leading sigma G G1 r : irregular 1 G G1 -> coulomb_phase 1 sigma -> 6 <= r ->
  Rabs (- (1 - 1 / r) * sin (theta 1 sigma r) - G1 r) <= 17 / 12 / r /\ sqrt (1 - 2 / r) * Rabs (cos (theta 1 sigma r) - G r) <= 17 / 12 / r.
Proof.
  intros I Hs Hr. pose proof (terms_near 1 sigma G G1 0 r ltac:(lra) I Hs ltac:(lra)) as T.
  assert (E : expansion 1 1 = (1 / 2, 1 / 2)) by (cbn [expansion multiplier INR]; f_equal; field). rewrite E in T. destruct T as (_ & T1 & T0).
  assert (Q : 2 * sqrt ((1 / 2) ^ 2 + (1 / 2) ^ 2) / r ^ 1 <= 17 / 12 / r).
  { rewrite pow_1. unfold Rdiv. apply Rmult_le_compat_r; [left; apply Rinv_0_lt_compat; lra|]. assert (sqrt ((1 * / 2) ^ 2 + (1 * / 2) ^ 2) <= 17 / 24) by (rewrite <- (sqrt_pow2 (17 / 24)) by lra; apply sqrt_le_1_alt; lra). lra. }
  assert (W0 : wave 1 sigma 0 r = cos (theta 1 sigma r)) by (unfold wave, terms; cbn [sum_f_R0 expansion]; unfold turned; cbn [fst snd pow]; field).
  assert (S0 : slopes 1 0 r (theta 1 sigma r) = - (1 - 1 / r) * sin (theta 1 sigma r)) by (unfold slopes; cbn [sum_f_R0 expansion INR]; unfold turned, times_i; cbn [fst snd pow]; field; lra).
  rewrite W0 in T0. rewrite S0 in T1. replace (2 * 1 / r) with (2 / r) in T0 by (field; lra). split; lra.
Qed.
Lemma leading_value sigma G G1 r : irregular 1 G G1 -> coulomb_phase 1 sigma -> 6 <= r -> Rabs (cos (theta 1 sigma r) - G r) <= 7 / 4 / r.
Proof.
  intros I Hs Hr. destruct (leading sigma G G1 r I Hs Hr) as [_ T]. assert (R : 0 < / r <= / 6) by (split; [apply Rinv_0_lt_compat; lra | apply Rinv_le_contravar; lra]).
  assert (Q : 81 / 100 <= sqrt (1 - 2 / r)) by (rewrite <- (sqrt_pow2 (81 / 100)) by lra; apply sqrt_le_1_alt; unfold Rdiv; lra).
  pose proof (Rabs_pos (cos (theta 1 sigma r) - G r)) as P. assert (81 / 100 * Rabs (cos (theta 1 sigma r) - G r) <= 17 / 12 / r) by (eapply Rle_trans; [apply Rmult_le_compat_r; [exact P | exact Q] | exact T]). unfold Rdiv in *. lra.
Qed.
Lemma case_limits G G1 : irregular 1 G G1 -> limits 1 6 12 1 (13 / 10) G G1.
Proof.
  intros I. destruct (phase_exists 1) as (sigma & Hs & _). split; [lra | lra|]. intros x Hx.
  pose proof (leading_value sigma G G1 x I Hs ltac:(lra)) as A. destruct (leading sigma G G1 x I Hs ltac:(lra)) as [B _]. assert (R : 0 < / x <= / 6) by (split; [apply Rinv_0_lt_compat; lra | apply Rinv_le_contravar; lra]).
  pose proof (COS_bound (theta 1 sigma x)) as C. pose proof (SIN_bound (theta 1 sigma x)) as S. set (c := cos (theta 1 sigma x)) in *. set (s := sin (theta 1 sigma x)) in *.
  apply le_abs in A. apply le_abs in B. assert (Q : - 1 <= (1 - 1 / x) * s <= 1) by (unfold Rdiv; nra). split; apply abs_le; unfold Rdiv in *; lra.
Qed.
Lemma case_start G G1 : irregular 1 G G1 -> / 10 ^ 7 < Rabs (G 12) /\ 2 / 10 ^ 7 < Rabs (G1 12).
Proof.
  intros I. destruct (phase_exists 1) as (sigma & Hs & _). destruct (start_range sigma Hs) as [C S].
  pose proof (leading_value sigma G G1 12 I Hs ltac:(lra)) as A. destruct (leading sigma G G1 12 I Hs ltac:(lra)) as [B _]. set (c := cos (theta 1 sigma 12)) in *. set (s := sin (theta 1 sigma 12)) in *.
  apply le_abs in A. apply le_abs in B. split; rewrite Rabs_left; lra.
Qed.
Lemma case_error : inward_error 1 6 12 1 (13 / 10) (1 / 100) (3 / 10 ^ 7) <= / 1000.
Proof.
  unfold inward_error, growth. rewrite Rpower_1 by lra. 
  assert (E : exp ((12 - 6) * step_growth 1 6 1 (1 / 100)) <= 23 / 20).
  { set (z := (12 - 6) * _). assert (Z : 0 <= z <= 13 / 100) by (unfold z, step_growth; lra). pose proof (exp_ineq1_le (- z)) as X. rewrite exp_Ropp in X. pose proof (exp_pos z) as P.
    assert (Y : (1 - z) * exp z <= 1) by (apply Rle_trans with (/ exp z * exp z); [apply Rmult_le_compat_r; lra | rewrite Rinv_l; lra]). nra. }
  assert (L : 0 <= step_loss 1 6 1 (13 / 10) (1 / 100) <= 6 / 100000) by (unfold step_loss; lra).
  set (e := exp _) in *. set (l := step_loss _ _ _ _ _) in *. pose proof (exp_pos ((12 - 6) * step_growth 1 6 1 (1 / 100)) : 0 < e) as P. nra.
Qed.
Lemma case_inward : exists G G1 a b, irregular 1 G G1 /\ omAsymptotic exact (Fin 6) (Fin 1) (sigma0_of exact (Fin 1)) = Ok (a, b) /\
  ((exists g g1, a = Fin g /\ b = Fin g1 /\ gap (g - G 6) (g1 - G1 6) <= / 1000) \/ (exists p0 p1, a = Fin 0 /\ b = Fin 0 /\ gave_up 1 6 12 p0 p1)).
Proof.
  destruct (irregular_exists 1) as (G & G1 & I); [lra|]. destruct (case_start G G1 I) as [S0 S1]. replace 12 with (2 * 1 + 10) in S0, S1 by ring.
  pose proof (case_limits G G1 I) as L. replace 12 with (2 * 1 + 10) in L by ring.
  destruct (far_inward 1 6 G G1 1 (13 / 10) ltac:(lra) ltac:(lra) I) as (p0 & p1 & a & b & _ & _ & E & C); try assumption; try lra.
  { intros k Hk. replace (2 * 1 + 10) with 12 by ring. exact (not_repeating k Hk). }
  replace (2 * 1 + 10) with 12 in C by ring. exists G, G1, a, b. split; [exact I|]. split; [exact E|]. destruct C as [(g & g1 & Ea & Eb & Q)|(Ea & Eb & V)].
  - left. exists g, g1. split; [exact Ea|]. split; [exact Eb|]. eapply Rle_trans; [exact Q | exact case_error].
  - right. exists p0, p1. split; [exact Ea|]. split; [exact Eb | exact V].
Qed.

(** Two steps from 12, the function has not changed its sign *)
Lemma near_limits G G1 : irregular 1 G G1 -> limits 1 (1198 / 100) 12 1 (13 / 10) G G1.
Proof. intros I. destruct (case_limits G G1 I) as [_ _ H]. split; [lra | lra|]. intros x Hx. apply H. lra. Qed.
Lemma near_error : inward_error 1 (1198 / 100) 12 1 (13 / 10) (1 / 100) (3 / 10 ^ 7) <= / 100000.
Proof.
  unfold inward_error, growth. rewrite Rpower_1 by lra. 
  assert (E : exp ((12 - 1198 / 100) * step_growth 1 (1198 / 100) 1 (1 / 100)) <= 23 / 20).
  { set (z := (12 - 1198 / 100) * _). assert (Z : 0 <= z <= 13 / 100) by (unfold z, step_growth; lra). pose proof (exp_ineq1_le (- z)) as X. rewrite exp_Ropp in X. pose proof (exp_pos z) as P.
    assert (Y : (1 - z) * exp z <= 1) by (apply Rle_trans with (/ exp z * exp z); [apply Rmult_le_compat_r; lra | rewrite Rinv_l; lra]). nra. }
  assert (L : 0 <= step_loss 1 (1198 / 100) 1 (13 / 10) (1 / 100) <= 6 / 100000) by (unfold step_loss; lra).
  set (e := exp _) in *. set (l := step_loss _ _ _ _ _) in *. pose proof (exp_pos ((12 - 1198 / 100) * step_growth 1 (1198 / 100) 1 (1 / 100)) : 0 < e) as P. nra.
Qed.
Lemma near_away G G1 x : irregular 1 G G1 -> 1198 / 100 <= x <= 12 -> 1 / 20 <= Rabs (G x) /\ / 10 ^ 10 <= Rabs (2 * 1 / x - 1).
Proof.
  intros I Hx. assert (R : 0 < / x <= / 11) by (split; [apply Rinv_0_lt_compat; lra | apply Rinv_le_contravar; lra]). split; [|rewrite Rabs_left; unfold Rdiv; lra].
  destruct (phase_exists 1) as (sigma & Hs & _). destruct (start_range sigma Hs) as [C _]. pose proof (le_abs _ _ (leading_value sigma G G1 12 I Hs ltac:(lra))) as A.
  destruct (MVT_gen G x 12 G1) as (c & Hc & E); rewrite ?Rmin_left, ?Rmax_right in * by lra.
  - intros t Ht. apply (ir_slope _ _ _ I). lra.
  - intros t Ht. apply derivable_continuous_pt. exists (G1 t). apply is_derive_Reals, (ir_slope _ _ _ I). lra.
  - destruct (case_limits G G1 I) as [_ _ H]. destruct (H c ltac:(lra)) as [_ B]. apply le_abs in B. rewrite Rabs_left; nra.
Qed.
Lemma near_inward : exists G G1 g g1, irregular 1 G G1 /\ omAsymptotic exact (Fin (1198 / 100)) (Fin 1) (sigma0_of exact (Fin 1)) = Ok (Fin g, Fin g1) /\ gap (g - G (1198 / 100)) (g1 - G1 (1198 / 100)) <= / 100000.
Proof.
  destruct (irregular_exists 1) as (G & G1 & I); [lra|]. destruct (case_start G G1 I) as [S0 S1]. replace 12 with (2 * 1 + 10) in S0, S1 by ring.
  pose proof (near_limits G G1 I) as L. replace 12 with (2 * 1 + 10) in L by ring.
  destruct (far_inward 1 (1198 / 100) G G1 1 (13 / 10) ltac:(lra) ltac:(lra) I) as (p0 & p1 & a & b & A & B & E & C); try assumption; try lra.
  { intros k Hk. replace (2 * 1 + 10) with 12 by ring. exact (not_repeating k Hk). }
  replace (2 * 1 + 10) with 12 in * by ring. exists G, G1. destruct C as [(g & g1 & Ea & Eb & Q)|(Ea & Eb & V)].
  - exists g, g1. split; [exact I|]. split; [rewrite <- Ea, <- Eb; exact E|]. eapply Rle_trans; [exact Q | exact near_error].
  - exfalso. revert V. apply (never_gives_up 1 (1198 / 100) 12 p0 p1 1 (13 / 10) G G1 (3 / 10 ^ 7) (1 / 20)); try lra; try assumption.
    + apply irregular_solution; [lra | exact I].
    + eapply Rle_trans; [apply gap_sum|]. lra.
    + pose proof near_error. lra.
    + intros x Hx. apply (near_away G G1 x I Hx).
Qed.
