(** What omAsymptotic returns in the oscillating region, and the orders in which the Coulomb equation holds. *)
From Coq Require Import ZArith Reals Lia Lra Psatz.
From Coquelicot Require Import Coquelicot.
From Verif Require Import Outcome CoulombWaveModel CoulombWaveSpec CoulombExactModel CoulombExactProofs CoulombRealProofs CoulombOscillationProofs CoulombMeshProofs NewmarkSpec AsymptoticSpec SigmaSpec IrregularSpec IrregularProofs IrregularFar OscillationSpec OscillationEquation OscillationBound OscillationPhase OscillationFar.
Open Scope R_scope.

(** * The slope of the code *)
Lemma slope_near y r : 5 <= y <= 15 -> 25 / 10 * y + 75 / 10 <= r -> Rabs (f4' y r - g4 y r) <= 8 / 1000.
Proof.
  intros Hy Hr. destruct (region y r Hy Hr) as (Z & X & ZX). pose proof (w_le y r Hy Hr) as W. pose proof (mm_le y r Hy Hr) as M. set (x := 2 * y / r) in *. set (z := 1 / (2 * y)) in *.
  assert (H : 0 < 2 * y < r) by lra. pose proof (f4_derive y r H) as D. cbv zeta in D. fold x z in D. pose proof (is_derive_unique _ _ _ D) as E. rewrite (is_derive_unique _ _ _ (f4_slope y r H)) in E.
  replace (f4' y r - g4 y r) with (x ^ 2 * (z ^ 6 * slipped x * mm z x * sin (fai y z x) - (1 - z / (1 - x)) * tail z x * f4 y r)) by lra. clear D E.
  destruct (sizes x ltac:(lra)) as (H1 & H2 & H3 & _). destruct (trig_le (fai y z x)) as [C S]. pose proof (f4_value y r) as Ef. cbv zeta in Ef. fold x z in Ef.
  assert (Fb : Rabs (f4 y r) <= 4 / 3) by (rewrite Ef, Rabs_mult, (Rabs_pos_eq (mm z x)) by lra; pose proof (Rabs_pos (cos (fai y z x))); nra).
  assert (Tb : Rabs (tail z x) <= 9 / 1000).
  { rewrite <- sigma_tail by lra. unfold sigma. replace (w0 z x) with (z ^ 2 * x ^ 2 / (1 - x) ^ 3) by (unfold w0, v0, u1; field; lra). set (w := z ^ 2 * x ^ 2 / (1 - x) ^ 3) in *. rewrite Rabs_mult, (Rabs_pos_eq w) by lra.
    assert (A : Rabs (h2 x + w * h3 x) <= 15 / 8 + 5 / 243 * 26) by (apply sum_le; [exact H2 | apply prod_le; [apply abs_le; lra | exact H3]]).
    assert (B : Rabs (h1 x + w * (h2 x + w * h3 x)) <= 3 / 8 + 5 / 243 * (15 / 8 + 5 / 243 * 26)) by (apply sum_le; [exact H1 | apply prod_le; [apply abs_le; lra | exact A]]).
    pose proof (Rabs_pos (h1 x + w * (h2 x + w * h3 x))). nra. }
  assert (Kb : Rabs (1 - z / (1 - x)) <= 1).
  { assert (0 <= z / (1 - x) <= 1); [|apply Rabs_le; lra]. split; [apply Rdiv_le_0_compat; lra|]. apply (Rmult_le_reg_r (1 - x)); [lra|]. unfold Rdiv. rewrite Rmult_assoc, Rinv_l by lra. lra. }
  pose proof (u2_range x ltac:(lra)) as U. pose proof (u2_sq x ltac:(lra)) as Q.
  assert (Sb : Rabs (z ^ 6 * slipped x) <= 1 / 1000).
  { unfold slipped. change (sqrt (1 - x)) with (u2 x). replace (u2 x ^ 17) with ((1 - x) ^ 8 * u2 x) by (rewrite <- Q; ring).
    replace (z ^ 6 * (2000000 / 10321920 * x ^ 3 * (4 + 7 / 2 * x) / ((1 - x) ^ 8 * u2 x))) with ((z ^ 2 * x ^ 2 / (1 - x) ^ 3) * (z * x / (u2 x * (1 - x))) * (z ^ 3 * (2000000 / 10321920) * (4 + 7 / 2 * x) / (1 - x) ^ 4)) by (field; lra).
    assert (Tb2 : Rabs (z * x / (u2 x * (1 - x))) <= 144 / 1000).
    { replace (z * x / (u2 x * (1 - x))) with (z * x * u2 x / (1 - x) ^ 2) by (replace ((1 - x) ^ 2) with ((1 - x) * (u2 x * u2 x)) by (rewrite Q; ring); field; lra). apply (t_le y r Hy Hr). }
    assert (Vb : Rabs (z ^ 3 * (2000000 / 10321920) * (4 + 7 / 2 * x) / (1 - x) ^ 4) <= 1 / 10).
    { assert (D4 : (1 / 3) ^ 4 <= (1 - x) ^ 4) by (apply pow_incr; lra). assert (Z3 : 0 <= z ^ 3 <= (1 / 10) ^ 3) by (split; [apply pow_le; lra | apply pow_incr; lra]). apply abs_le. assert (P : 0 <= z ^ 3 * (2000000 / 10321920) * (4 + 7 / 2 * x) <= 1 / 10 * (1 - x) ^ 4) by nra.
      split; [apply Rdiv_le_0_compat; lra|]. apply (Rmult_le_reg_r ((1 - x) ^ 4)); [lra|]. unfold Rdiv at 1. rewrite Rmult_assoc, Rinv_l by lra. lra. }
    eapply Rle_trans; [apply prod_le; [apply prod_le; [apply abs_le; exact W | exact Tb2] | exact Vb]|]. lra. }
  assert (Xb : Rabs (x ^ 2) <= 4 / 9) by (apply abs_le; nra).
  eapply Rle_trans; [apply prod_le; [exact Xb | apply dif_le; [apply prod_le; [apply prod_le; [exact Sb | apply (abs_le _ (4 / 3)); lra] | exact S] | apply prod_le; [apply prod_le; [exact Kb | exact Tb] | exact Fb]]]|]. lra.
Qed.
Theorem oscillation_code eta rho s G G1 : 5 <= eta < 15 -> 25 / 10 * eta + 75 / 10 <= rho -> irregular eta G G1 ->
  exists g g1, omAsymptotic exact (Fin rho) (Fin eta) s = Ok (Fin g, Fin g1) /\ Rabs (g - G rho) <= / 1000 /\ Rabs (g1 - G1 rho) <= / 100.
Proof.
  intros He Hr I. exists (f4 eta rho), (f4' eta rho). split; [|split].
  - rewrite asymptotic_oscillation by lra. rewrite (case4_lift rho eta) by lra. unfold lifted, f4, f4'. destruct (omGcase4 real rho eta). reflexivity.
  - apply (oscillation_near eta rho G G1); lra || assumption.
  - destruct (oscillation_near eta rho G G1 ltac:(lra) Hr I) as [N _]. pose proof (slope_near eta rho ltac:(lra) Hr) as L. replace (f4' eta rho - G1 rho) with ((f4' eta rho - g4 eta rho) + (g4 eta rho - G1 rho)) by ring. eapply Rle_trans; [apply Rabs_triang|]. lra.
Qed.

(** * The orders *)
Definition first_left (z x : R) : R * R :=
  (- (z ^ 6 * x ^ 5 * t6 x / (1 - x) ^ 8), sqrt (1 - x) * (- (z ^ 5 * x ^ 7 * t5 x / (1 - x) ^ 7) + z ^ 7 * x ^ 6 * t7 x / (1 - x) ^ 10)).
Lemma orders_left z x : 0 < z <= 1 -> 0 < x <= 2 / 3 -> Rabs (rest_real z x - fst (first_left z x)) <= 10 ^ 15 * z ^ 8 /\ Rabs (rest_imag z x - snd (first_left z x)) <= 10 ^ 15 * z ^ 8.
Proof.
  intros Hz Hx. rewrite (real_is z x Hx), (imag_is z x Hx) by lra. unfold first_left. cbn [fst snd]. change (sqrt (1 - x)) with (u2 x). pose proof (u2_range x ltac:(lra)) as U. pose proof (u2_sq x ltac:(lra)) as Sq.
  destruct (sizes x ltac:(lra)) as (H1 & H2 & H3 & E1 & E2 & K6 & T8 & T7 & T6 & T5). apply abs_le in T8. apply abs_le in T7. apply abs_le in T6. apply abs_le in T5.
  set (i := / (1 - x)). assert (Ii : 0 < i <= 3) by (unfold i; split; [apply Rinv_0_lt_compat; lra | replace 3 with (/ (1 / 3)) by field; apply Rinv_le_contravar; lra]). assert (I : Rabs i <= 3) by (apply abs_le; lra).
  assert (Xa : Rabs x <= 1) by (apply abs_le; lra). assert (Ua : Rabs (u2 x) <= 1) by (apply abs_le; lra). assert (Za : Rabs z <= 1) by (apply abs_le; lra).
  assert (Z8 : 0 <= z ^ 8) by (apply pow_le; lra). split.
  - match goal with |- Rabs ?e <= _ => replace e with (z ^ 8 * - (x ^ 8 * i ^ 11 * t8 x - z ^ 2 * (x ^ 10 * i ^ 14 * (x ^ 2 * (2 * h1 x * h3 x + h2 x ^ 2) - 2 * e2 x * k6 x)) - z ^ 4 * (x ^ 10 * i ^ 17 * (2 * x ^ 4 * h2 x * h3 x - k6 x ^ 2)) - z ^ 6 * (x ^ 16 * i ^ 20 * h3 x ^ 2))) end.
    + rewrite Rabs_mult, (Rabs_pos_eq (z ^ 8)), Rmult_comm by exact Z8. apply Rmult_le_compat_r; [exact Z8|]. rewrite Rabs_Ropp. eapply Rle_trans; [pieces|]. lra.
    + unfold i. generalize (h1 x) (h2 x) (h3 x) (e2 x) (k6 x) (t6 x) (t8 x). intros. field. lra.
  - match goal with |- Rabs ?e <= _ => replace e with (z ^ 8 * (u2 x * (z * (2 * (x ^ 9 * i ^ 13 * (h1 x * k6 x + x ^ 2 * (h2 x * e2 x + h3 x * e1 x)))) + z ^ 3 * (2 * (x ^ 11 * i ^ 16 * (h2 x * k6 x + x ^ 2 * h3 x * e2 x))) + z ^ 5 * (2 * (x ^ 13 * i ^ 19 * (h3 x * k6 x)))))) end.
    + rewrite Rabs_mult, (Rabs_pos_eq (z ^ 8)), Rmult_comm by exact Z8. apply Rmult_le_compat_r; [exact Z8|]. eapply Rle_trans; [pieces|]. lra.
    + unfold i. generalize (h1 x) (h2 x) (h3 x) (e1 x) (e2 x) (k6 x) (t5 x) (t7 x) (u2 x). intros. field. lra.
Qed.
Lemma first_left_is z x phi : x < 1 -> fst (first_left z x) * cos phi + snd (first_left z x) * sin phi = left_over z x phi.
Proof. intros H. unfold first_left, left_over, t5, t6, t7. cbn [fst snd]. generalize (sqrt (1 - x)) (cos phi) (sin phi). intros. field. lra. Qed.
Theorem orders : exists C, forall y, 1 / 2 <= y -> exists f f1 m phi rest : R -> R, forall r, 2 * y < r -> let x := 2 * y / r in let z := 1 / (2 * y) in
  (exists d, omGcase4 exact (Fin r) (Fin y) = (Fin (f r), d)) /\ f r = m r * cos (phi r) /\ 0 < m r /\
  is_derive f r (f1 r) /\ is_derive f1 r ((x - 1) * f r + rest r) /\
  (3 * y <= r -> Rabs (rest r - m r * left_over z x (phi r)) <= C * z ^ 8 * m r).
Proof.
  exists (2 * 10 ^ 15). intros y Hy. exists (f4 y), (g4 y), (fun r => mm (1 / (2 * y)) (2 * y / r)), (fun r => fai y (1 / (2 * y)) (2 * y / r)), (rest4 y). intros r Hr x z.
  assert (H : 0 < 2 * y < r) by lra. pose proof (x_range r y H) as Hx. fold x in Hx. pose proof (u2_range x Hx) as U.
  assert (M : 0 < mm z x) by (unfold mm; apply Rmult_lt_0_compat; [apply Rdiv_lt_0_compat; [lra | apply sqrt_lt_R0; lra] | apply exp_pos]).
  apply Logic.conj; [|apply Logic.conj; [|apply Logic.conj; [exact M|apply Logic.conj; [|apply Logic.conj]]]].
  - exists (Fin (f4' y r)). rewrite (case4_lift r y) by lra. unfold lifted, f4, f4'. destruct (omGcase4 real r y). reflexivity.
  - apply f4_value.
  - apply f4_slope, H.
  - apply g4_slope, H.
  - intros R3. fold x z. rewrite <- first_left_is by lra. unfold rest4. cbv zeta. fold x z. set (phi := fai y z x). 
    assert (Z : 0 < z <= 1) by (unfold z; split; [apply Rdiv_lt_0_compat; lra|]; apply (Rmult_le_reg_r (2 * y)); [lra|]; unfold Rdiv; rewrite Rmult_assoc, Rinv_l by lra; lra).
    assert (X : 0 < x <= 2 / 3) by (split; [lra|]; unfold x; apply (Rmult_le_reg_r r); [lra|]; unfold Rdiv; rewrite Rmult_assoc, Rinv_l by lra; lra).
    destruct (orders_left z x Z X) as [A B]. destruct (trig_le phi) as [Cc Ss]. set (p := rest_real z x) in *. set (q := rest_imag z x) in *. set (a := fst (first_left z x)) in *. set (b := snd (first_left z x)) in *.
    replace (mm z x * (p * cos phi + q * sin phi) - mm z x * (a * cos phi + b * sin phi)) with (((p - a) * cos phi + (q - b) * sin phi) * mm z x) by ring.
    rewrite Rabs_mult, (Rabs_pos_eq (mm z x)) by lra. apply Rmult_le_compat_r; [lra|]. eapply Rle_trans; [apply sum_le; apply prod_le; eassumption|]. lra.
Qed.
Theorem far_phase y sigma : 4 <= y -> coulomb_phase y sigma -> exists (f : R -> R) s, (forall r, 2 * y < r -> exists d, omGcase4 exact (Fin r) (Fin y) = (Fin (f r), d)) /\
  is_lim (fun r => f r - cos (theta y s r)) p_infty 0 /\ Rabs (s - sigma) <= 5 / 10 ^ 8 + 2 / 10 ^ 5 / y ^ 3.
Proof.
  intros H Hs. exists (f4 y), (s_far y). split; [|split].
  - intros r Hr. exists (Fin (f4' y r)). rewrite (case4_lift r y) by lra. unfold lifted, f4, f4'. destruct (omGcase4 real r y). reflexivity.
  - apply f4_far. lra.
  - eapply Rle_trans; [apply s_far_close; eassumption|]. unfold Rdiv. lra.
Qed.
Lemma at_20 : exists G G1 g g1, irregular 5 G G1 /\ omAsymptotic exact (Fin 20) (Fin 5) (sigma0_of exact (Fin 5)) = Ok (Fin g, Fin g1) /\ Rabs (g - G 20) <= / 1000 /\ Rabs (g1 - G1 20) <= / 100.
Proof.
  destruct (irregular_exists 5) as (G & G1 & I); [lra|]. destruct (oscillation_code 5 20 (sigma0_of exact (Fin 5)) G G1 ltac:(lra) ltac:(lra) I) as (g & g1 & H). exists G, G1, g, g1. split; [exact I | exact H].
Qed.
