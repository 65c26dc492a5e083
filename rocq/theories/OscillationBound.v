(** How far omGcase4 is from solving the Coulomb equation where it is used. *)
From Coq Require Import ZArith Reals Bool Lia Lra Psatz.
From Coquelicot Require Import Coquelicot.
From Verif Require Import CoulombWaveModel CoulombWaveSpec CoulombExactModel CoulombExactProofs CoulombRealProofs CoulombOscillationProofs NewmarkSpec OscillationEquation.
Open Scope R_scope.

(** * The sizes of the coefficients *)
Definition k6 (x : R) : R := x ^ 2 * e3 x + 2000000 / 10321920 * (4 + 7 / 2 * x).
Definition t8 (x : R) : R := 3125 / 8064 + 2543285 / 16128 * x + 2319307 / 24576 * x ^ 2 + 4761 / 64 * x ^ 3 - 79811 / 2048 * x ^ 4 + 85479 / 4096 * x ^ 5 - 239589 / 32768 * x ^ 6 + 199305 / 131072 * x ^ 7 - 597915 / 4194304 * x ^ 8.
Definition t7 (x : R) : R := 15625 / 4032 + 115625 / 16128 * x + 3125 / 1536 * x ^ 2.
Definition t6 (x : R) : R := 3125 / 2016 + 3125 / 2304 * x.
Definition t5 (x : R) : R := 3 / 32 - 21 / 256 * x + 15 / 512 * x ^ 2 - 9 / 2048 * x ^ 3.
Lemma sizes x : 0 <= x <= 2 / 3 -> Rabs (h1 x) <= 3 / 8 /\ Rabs (h2 x) <= 15 / 8 /\ Rabs (h3 x) <= 26 /\ Rabs (e1 x) <= 1 / 4 /\ Rabs (e2 x) <= 3 / 4 /\ Rabs (k6 x) <= 41 / 10 /\
  0 <= t8 x <= 170 /\ 0 <= t7 x <= 956 / 100 /\ 0 <= t6 x <= 2455 / 1000 /\ 0 <= t5 x <= 3 / 32.
Proof.
  intros Hx. assert (M : forall k, 0 <= x ^ k /\ x ^ S k <= 2 / 3 * x ^ k /\ x ^ S k <= x ^ k) by (intros k; assert (0 <= x ^ k) by (apply pow_le; lra); cbn [pow]; split; [assumption | split; [apply Rmult_le_compat_r; lra | nra]]).
  pose proof (M 0%nat) as M0. pose proof (M 1%nat) as M1. pose proof (M 2%nat) as M2. pose proof (M 3%nat) as M3. pose proof (M 4%nat) as M4. pose proof (M 5%nat) as M5. pose proof (M 6%nat) as M6. pose proof (M 7%nat) as M7. pose proof (M 8%nat) as M8. clear M. rewrite pow_O in M0. rewrite (pow_1 x) in M0, M1.
  assert (E1 : h1 x = -3 * (x ^ 2 - 4 * x + 8) / 64) by (unfold h1; field). assert (E2 : h2 x = 3 * (39 * x ^ 4 - 260 * x ^ 3 + 728 * x ^ 2 - 832 * x + 2560) / 4096) by (unfold h2; field).
  assert (E3 : h3 x = -3 * (1899 * x ^ 6 - 17724 * x ^ 5 + 73432 * x ^ 4 - 177280 * x ^ 3 + 308480 * x ^ 2 + 196608 * x + 860160) / 131072) by (unfold h3; field).
  assert (E4 : e2 x = - (- 63 * x ^ 3 + 336 * x ^ 2 - 704 * x + 1536) / 2048) by (unfold e2; field).
  assert (E6 : k6 x = (- 2079 * x ^ 7 + 16632 * x ^ 6 - 57792 * x ^ 5 + 114944 * x ^ 4 - 30720 * x ^ 3 + 368640 * x ^ 2) / 65536 + 2000000 / 10321920 * (4 + 7 / 2 * x)) by (unfold k6, e3; field).
  unfold e1, t5, t6, t7, t8. rewrite E1, E2, E3, E4, E6. clear E1 E2 E3 E4 E6. revert M1 M2 M3 M4 M5 M6 M7 M8. generalize (x ^ 2) (x ^ 3) (x ^ 4) (x ^ 5) (x ^ 6) (x ^ 7) (x ^ 8) (x ^ 9). intros.
  repeat split; try (apply Rabs_le; split); lra.
Qed.

(** * The rest in terms of w = z^2 x^2 / (1 - x)^3 and T = z^6 x^5 / (1 - x)^8 *)
Section Rest.
Variables (z x : R).
Hypothesis Hx : 0 < x <= 2 / 3.
Let w := z ^ 2 * x ^ 2 / (1 - x) ^ 3.
Let T := z ^ 6 * x ^ 5 / (1 - x) ^ 8.
Let t := z * x * u2 x / (1 - x) ^ 2.
Lemma real_8 : x ^ 2 * d_over n7 dn7 10 x + 2 * p1 x * p7 x + 2 * p3 x * p5 x - (1 - x) * (2 * q2 x * q6 x + q4 x ^ 2) = - x ^ 8 * t8 x / (1 - x) ^ 11.
Proof. unfold t8, p1, p3, p5, p7, q2, q4, q6, d_over, over, n1, n3, n5, n7, m2, m4, m6, dn7, h1, h2, h3, e1, e2, e3; cbn [INR]. field. lra. Qed.
Lemma m6_is : m6 x = x ^ 5 * k6 x.
Proof. unfold m6, k6. ring. Qed.
Lemma real_is : rest_real z x = - T * (t6 x + w * x * t8 x - w ^ 2 * x * (x ^ 2 * (2 * h1 x * h3 x + h2 x ^ 2) - 2 * e2 x * k6 x) - w ^ 2 * (z ^ 2 * x / (1 - x) ^ 3) * (2 * x ^ 4 * h2 x * h3 x - k6 x ^ 2) - w ^ 4 * x ^ 3 * h3 x ^ 2).
Proof.
  assert (S : u2 x ^ 2 = 1 - x) by (rewrite <- (u2_sq x ltac:(lra)); ring).
  transitivity (z ^ 2 * (x ^ 2 * d_over n1 dn1 1 x + p1 x ^ 2 - 2 * (1 - x) * q2 x) + z ^ 4 * (x ^ 2 * d_over n3 dn3 4 x + 2 * p1 x * p3 x - (1 - x) * (2 * q4 x + q2 x ^ 2))
    + z ^ 6 * (x ^ 2 * d_over n5 dn5 7 x + 2 * p1 x * p5 x + p3 x ^ 2 - (1 - x) * (2 * q6 x + 2 * q2 x * q4 x)) + z ^ 8 * (x ^ 2 * d_over n7 dn7 10 x + 2 * p1 x * p7 x + 2 * p3 x * p5 x - (1 - x) * (2 * q2 x * q6 x + q4 x ^ 2))
    + z ^ 10 * (2 * p3 x * p7 x + p5 x ^ 2 - (1 - x) * (2 * q4 x * q6 x)) + z ^ 12 * (2 * p5 x * p7 x - (1 - x) * q6 x ^ 2) + z ^ 14 * p7 x ^ 2).
  - unfold rest_real, P4, Q4, dP4. rewrite (Rpow_mult_distr (u2 x)), S. ring.
  - rewrite (real_2 x), (real_4 x), (real_6 x), real_8 by lra. unfold p3, p5, p7, q4, q6, over. rewrite m6_is. unfold n3, n5, n7, m4, w, T, t6. generalize (h1 x) (h2 x) (h3 x) (e2 x) (k6 x) (t8 x). intros. field. lra.
Qed.
Lemma imag_is : z <> 0 -> rest_imag z x = T * (- (u2 x * (1 - x) * x ^ 2 / z * t5 x) + t * t7 x
  + 2 * t * w * x * (h1 x * k6 x + x ^ 2 * (h2 x * e2 x + h3 x * e1 x)) + 2 * t * w ^ 2 * x * (h2 x * k6 x + x ^ 2 * h3 x * e2 x) + 2 * t * w ^ 3 * x * h3 x * k6 x).
Proof.
  intros Hz. transitivity (u2 x * (z * (2 * p1 x - x ^ 2 / (2 * (1 - x))) + z ^ 3 * (2 * (p1 x * q2 x + p3 x) + x ^ 2 * (d_over m2 dm2 3 x - q2 x / (2 * (1 - x))))
    + z ^ 5 * (2 * (p1 x * q4 x + p3 x * q2 x + p5 x) + x ^ 2 * (d_over m4 dm4 6 x - q4 x / (2 * (1 - x)))) + z ^ 7 * (2 * (p1 x * q6 x + p3 x * q4 x + p5 x * q2 x + p7 x) + x ^ 2 * (d_over m6 dm6 9 x - q6 x / (2 * (1 - x))))
    + z ^ 9 * (2 * (p3 x * q6 x + p5 x * q4 x + p7 x * q2 x)) + z ^ 11 * (2 * (p5 x * q6 x + p7 x * q4 x)) + z ^ 13 * (2 * p7 x * q6 x))).
  - unfold rest_imag, P4, Q4, dQ4. generalize (d_over m2 dm2 3 x) (d_over m4 dm4 6 x) (d_over m6 dm6 9 x) (p1 x) (p3 x) (p5 x) (p7 x) (q2 x) (q4 x) (q6 x) (u2 x). intros. field. lra.
  - rewrite (imag_1 x), (imag_3 x), (imag_5 x), (imag_7 x) by lra. unfold p3, p5, p7, q2, q4, q6, over. rewrite m6_is. unfold n3, n5, n7, m2, m4, w, t, T, t5, t7. generalize (h1 x) (h2 x) (h3 x) (e1 x) (e2 x) (k6 x) (u2 x). intros. field. lra.
Qed.
End Rest.

Lemma prod_le a b A B : Rabs a <= A -> Rabs b <= B -> Rabs (a * b) <= A * B.
Proof. intros HA HB. rewrite Rabs_mult. apply Rmult_le_compat; try apply Rabs_pos; assumption. Qed.
Lemma sum_le a b A B : Rabs a <= A -> Rabs b <= B -> Rabs (a + b) <= A + B.
Proof. intros HA HB. pose proof (Rabs_triang a b). lra. Qed.
Lemma dif_le a b A B : Rabs a <= A -> Rabs b <= B -> Rabs (a - b) <= A + B.
Proof. intros HA HB. pose proof (Rabs_triang a (- b)). rewrite Rabs_Ropp in *. unfold Rminus. lra. Qed.
Lemma pow_le_abs a A n : Rabs a <= A -> Rabs (a ^ n) <= A ^ n.
Proof. intros HA. rewrite <- RPow_abs. apply pow_incr. split; [apply Rabs_pos | exact HA]. Qed.
Lemma abs_le a A : 0 <= a <= A -> Rabs a <= A.
Proof. intros H. rewrite Rabs_pos_eq; lra. Qed.
Ltac pieces := repeat match goal with
  | H : Rabs ?a <= _ |- Rabs ?a <= _ => exact H
  | |- Rabs (- _) <= _ => rewrite Rabs_Ropp
  | |- Rabs (_ * _) <= _ => eapply prod_le
  | |- Rabs (_ + _) <= _ => eapply sum_le
  | |- Rabs (_ - _) <= _ => eapply dif_le
  | |- Rabs (_ ^ _) <= _ => eapply pow_le_abs
  | |- Rabs 2 <= _ => apply Req_le; apply Rabs_pos_eq; lra
  end.

(** * The arguments for which omGcase4 is called *)
Section Region.
Variables (y r : R).
Hypothesis Hy : 5 <= y <= 15.
Hypothesis Hr : 25 / 10 * y + 75 / 10 <= r.
Let x := 2 * y / r.
Let z := 1 / (2 * y).
Lemma region : 1 / 30 <= z <= 1 / 10 /\ 0 < x <= 2 / 3 /\ z * x <= (4 - 5 * x) / 30.
Proof.
  assert (R0 : 0 < / r) by (apply Rinv_0_lt_compat; lra). assert (Y0 : 0 < / y) by (apply Rinv_0_lt_compat; lra). assert (Ey : y * / y = 1) by (field; lra). assert (Er : r * / r = 1) by (field; lra).
  assert (Z : z = / y / 2) by (unfold z; field; lra). assert (X : x = 2 * y * / r) by (unfold x; field; lra). assert (ZX : z * x = / r) by (unfold z, x; field; lra).
  rewrite ZX, X, Z. split; [|split].
  - split; nra.
  - split; nra.
  - nra.
Qed.
Lemma w_le : 0 <= z ^ 2 * x ^ 2 / (1 - x) ^ 3 <= 5 / 243.
Proof.
  destruct region as (Z & X & ZX). assert (D : 0 < (1 - x) ^ 3) by (apply pow_lt; lra). split.
  - apply Rmult_le_pos; [apply Rmult_le_pos; apply pow2_ge_0 | left; apply Rinv_0_lt_compat; exact D].
  - apply (Rmult_le_reg_r ((1 - x) ^ 3)); [exact D|]. unfold Rdiv at 1. rewrite Rmult_assoc, Rinv_l, Rmult_1_r by lra. replace (z ^ 2 * x ^ 2) with ((z * x) ^ 2) by ring.
    apply (Rle_trans _ (((4 - 5 * x) / 30) ^ 2)); [apply pow_incr; split; [apply Rmult_le_pos; lra | exact ZX]|]. 
    pose proof (pow2_ge_0 (1 - x - 3 / 5)). nra.
Qed.
Lemma t_le : Rabs (z * x * u2 x / (1 - x) ^ 2) <= 144 / 1000.
Proof.
  destruct region as (Z & X & ZX). pose proof w_le as W. rewrite <- (Rabs_pos_eq (144 / 1000)) by lra. apply Rsqr_le_abs_0. unfold Rsqr.
  replace (z * x * u2 x / (1 - x) ^ 2 * (z * x * u2 x / (1 - x) ^ 2)) with (z ^ 2 * x ^ 2 / (1 - x) ^ 3) by (rewrite <- (u2_sq x ltac:(lra)); pose proof (u2_range x ltac:(lra)); field; lra). lra.
Qed.
Lemma mm_le : 0 < mm z x <= 4 / 3.
Proof.
  destruct region as (Z & X & ZX). pose proof w_le as W. assert (Hx : 0 < x < 1) by lra. pose proof (u2_range x Hx) as U. pose proof (u2_sq x Hx) as Sq.
  assert (Q : 3 / 4 <= sqrt (u2 x)) by (rewrite <- (sqrt_pow2 (3 / 4)) by lra; apply sqrt_le_1_alt; nra). assert (Q0 : 0 < sqrt (u2 x)) by lra.
  assert (P : psi z x <= 0).
  { unfold psi. replace (w0 z x) with (z ^ 2 * x ^ 2 / (1 - x) ^ 3) by (unfold w0, v0, u1; field; lra). set (w := z ^ 2 * x ^ 2 / (1 - x) ^ 3) in *.
    assert (B3 : b3 x <= 0).
    { replace (b3 x) with (- (- 5697 * x ^ 5 + 45576 * x ^ 4 - 159552 * x ^ 3 + 314624 * x ^ 2 - 55296 * x + 1105920) / 393216) by (unfold b3; field).
      assert (M : forall k, 0 <= x ^ k /\ x ^ S k <= x ^ k) by (intros k; assert (0 <= x ^ k) by (apply pow_le; lra); cbn [pow]; split; [assumption | nra]).
      pose proof (M 1%nat) as M1. pose proof (M 2%nat) as M2. pose proof (M 3%nat) as M3. pose proof (M 4%nat) as M4. rewrite (pow_1 x) in M1. lra. }
    assert (B2 : b2 x <= 1).
    { replace (b2 x) with (3 * (- 39 * x ^ 3 + 208 * x ^ 2 - 448 * x + 1024) / 8192) by (unfold b2; field).
      assert (M : forall k, 0 <= x ^ k /\ x ^ S k <= x ^ k) by (intros k; assert (0 <= x ^ k) by (apply pow_le; lra); cbn [pow]; split; [assumption | nra]).
      pose proof (M 1%nat) as M1. pose proof (M 2%nat) as M2. pose proof (M 3%nat) as M3. rewrite (pow_1 x) in M1. lra. }
    assert (B1 : b1 x <= - (1 / 16)) by (unfold b1; lra).
    assert (I : b2 x + w * b3 x <= 1) by nra. assert (J : b1 x + w * (b2 x + w * b3 x) <= 0) by nra.
    assert (K : 0 <= x * w) by (apply Rmult_le_pos; lra). nra. }
  unfold mm. pose proof (exp_pos (psi z x)) as E. assert (E1 : exp (psi z x) <= 1) by (rewrite <- exp_0; destruct P as [P|P]; [left; apply exp_increasing; exact P | rewrite P; lra]).
  assert (V : 0 < 1 / sqrt (u2 x) <= 4 / 3).
  { split; [apply Rdiv_lt_0_compat; lra|]. apply (Rmult_le_reg_r (sqrt (u2 x))); [exact Q0|]. unfold Rdiv at 1. rewrite Rmult_1_l, Rinv_l by lra. lra. }
  split; [apply Rmult_lt_0_compat; lra|]. nra.
Qed.
Lemma rest_le : Rabs (rest_real z x) + Rabs (rest_imag z x) <= 7 * (z ^ 6 * x ^ 5 / (1 - x) ^ 8).
Proof.
  destruct region as (Z & X & ZX). pose proof w_le as W. pose proof t_le as Ht. rewrite (real_is z x X), (imag_is z x X) by lra.
  set (T := z ^ 6 * x ^ 5 / (1 - x) ^ 8). assert (T0 : 0 <= T) by (apply Rmult_le_pos; [apply Rmult_le_pos; apply pow_le; lra | left; apply Rinv_0_lt_compat, pow_lt; lra]).
  set (w := z ^ 2 * x ^ 2 / (1 - x) ^ 3) in *. set (t := z * x * u2 x / (1 - x) ^ 2) in *. 
  destruct (sizes x ltac:(lra)) as (H1 & H2 & H3 & E1 & E2 & K6 & T8 & T7 & T6 & T5).
  apply abs_le in T8. apply abs_le in T7. apply abs_le in T6. apply abs_le in T5. apply abs_le in W.
  assert (Xa : Rabs x <= 2 / 3) by (apply abs_le; lra).
  assert (V : Rabs (z ^ 2 * x / (1 - x) ^ 3) <= 18 / 100).
  { assert (D : 1 / 27 <= (1 - x) ^ 3) by (replace (1 / 27) with ((1 / 3) ^ 3) by field; apply pow_incr; lra). apply abs_le. split; [apply Rmult_le_pos; [apply Rmult_le_pos; [apply pow2_ge_0 | lra] | left; apply Rinv_0_lt_compat; lra]|].
    apply (Rmult_le_reg_r ((1 - x) ^ 3)); [lra|]. unfold Rdiv at 1. rewrite Rmult_assoc, Rinv_l, Rmult_1_r by lra. assert (Z2 : z ^ 2 <= 1 / 100) by nra. nra. }
  set (v := z ^ 2 * x / (1 - x) ^ 3) in *.
  assert (U : Rabs (u2 x * (1 - x) * x ^ 2 / z) <= 445 / 100).
  { pose proof (u2_range x ltac:(lra)) as U. assert (Y0 : 0 < / z <= 30) by (split; [apply Rinv_0_lt_compat; lra | replace 30 with (/ (1 / 30)) by field; apply Rinv_le_contravar; lra]).
    unfold Rdiv. apply abs_le. assert (0 <= (1 - x) * x ^ 2 <= 148 / 1000 + 1 / 4000) by (pose proof (pow2_ge_0 (x - 2 / 3)); split; [apply Rmult_le_pos; nra | nra]). rewrite Rmult_assoc, Rmult_assoc, <- (Rmult_assoc (1 - x)). set (q := (1 - x) * x ^ 2) in *.
    assert (0 <= q * / z <= 445 / 100) by nra. split; [apply Rmult_le_pos; lra | nra]. }
  set (q := u2 x * (1 - x) * x ^ 2 / z) in *. 
  rewrite !Rabs_mult, Rabs_Ropp, (Rabs_pos_eq T) by exact T0. rewrite <- Rmult_plus_distr_l, (Rmult_comm T). apply Rmult_le_compat_r; [exact T0|].
  eapply Rle_trans; [apply Rplus_le_compat|]; [pieces | pieces |]. lra.
Qed.
Lemma rest4_le : Rabs (rest4 y r) <= 28 / 3 * (z ^ 6 * x ^ 5 / (1 - x) ^ 8).
Proof.
  pose proof mm_le as M. pose proof rest_le as L. unfold rest4. cbv zeta. fold x z. rewrite Rabs_mult, (Rabs_pos_eq (mm z x)) by lra.
  assert (A : Rabs (rest_real z x * cos (fai y z x) + rest_imag z x * sin (fai y z x)) <= Rabs (rest_real z x) + Rabs (rest_imag z x)).
  { eapply Rle_trans; [apply Rabs_triang|]. rewrite !Rabs_mult. pose proof (COS_bound (fai y z x)). pose proof (SIN_bound (fai y z x)).
    assert (C : Rabs (cos (fai y z x)) <= 1) by (apply Rabs_le; lra). assert (S : Rabs (sin (fai y z x)) <= 1) by (apply Rabs_le; lra). pose proof (Rabs_pos (rest_real z x)). pose proof (Rabs_pos (rest_imag z x)). nra. }
  set (T := z ^ 6 * x ^ 5 / (1 - x) ^ 8) in *. pose proof (Rabs_pos (rest_real z x * cos (fai y z x) + rest_imag z x * sin (fai y z x))). nra.
Qed.
End Region.
