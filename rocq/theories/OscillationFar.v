(** The values of omGcase4 are those of the irregular Coulomb function to three digits. *)
From Coq Require Import ZArith Reals Lia Lra Psatz.
From Coquelicot Require Import Coquelicot.
From Verif Require Import Outcome CoulombWaveModel CoulombWaveSpec CoulombExactModel CoulombExactProofs CoulombRealProofs CoulombOscillationProofs CoulombMeshProofs NewmarkSpec AsymptoticSpec AsymptoticProofs SigmaSpec IrregularSpec IrregularProofs IrregularFar OscillationEquation OscillationBound OscillationPhase.
Open Scope R_scope.

(** * Far away *)
Section Far.
Variable y : R.
Hypothesis Hy : 0 < y.
Let z := 1 / (2 * y).
Definition turn (x : R) : R := (y - 2 * y / (1 + u2 x) + 2 * y * ln 2 - 2 * y * ln (1 + u2 x)) + (sqrt (v0 z x) * (a1 x + v0 z x * (a2 x + v0 z x * a3 x)) + (1 / 12 * / y + 1 / 360 * / y ^ 3 + 1 / 1260 * / y ^ 5)).
Lemma z_pos : 0 < z.
Proof. apply Rdiv_lt_0_compat; lra. Qed.
Lemma u2_0 : u2 0 = 1.
Proof. unfold u2. rewrite Rminus_0_r. apply sqrt_1. Qed.
Ltac pos := first [lra | apply Rinv_0_lt_compat; lra | apply Rmult_lt_0_compat; pos].
Lemma fai_turn r : 2 * y < r -> fai y z (2 * y / r) = theta y (s_far y) r + turn (2 * y / r).
Proof.
  intros Hr. assert (Hx : 0 < 2 * y / r < 1) by (apply x_range; lra). pose proof (u2_range _ Hx) as U. pose proof (u2_sq _ Hx) as Sq. set (x := 2 * y / r) in *. set (u := u2 x) in *.
  assert (Er : r = 2 * y / x) by (unfold x; field; lra). unfold fai, turn, theta, s_far, lead. fold z x u.
  assert (L : ln ((1 - u) / (1 + u)) = ln x - 2 * ln (1 + u)).
  { replace ((1 - u) / (1 + u)) with (x * (/ (1 + u) * / (1 + u))) by (replace x with ((1 - u) * (1 + u)) by lra; field; lra).
    assert (I : 0 < / (1 + u)) by (apply Rinv_0_lt_compat; lra). rewrite !ln_mult, ln_Rinv by pos. ring. }
  assert (L2 : ln x = ln 2 + ln y - ln r) by (unfold x, Rdiv; rewrite !ln_mult, ln_Rinv by pos; ring).
  assert (L3 : ln (2 * r) = ln 2 + ln r) by (apply ln_mult; lra). rewrite L, L2, L3.
  assert (X : 2 * y * (u / x) = r - 2 * y / (1 + u)) by (rewrite Er; replace x with ((1 - u) * (1 + u)) by lra; field; lra).
  rewrite Rmult_plus_distr_l, X. generalize (sqrt (v0 z x) * (a1 x + v0 z x * (a2 x + v0 z x * a3 x))) (@PI_4 real). intros a p. field. lra.
Qed.
(** functions of x without a singularity at 0 *)
Ltac sides := repeat split; try exact Logic.I; try (apply Rgt_not_eq); try lra.
Lemma u2_at : continuous u2 0.
Proof. apply (ex_derive_continuous u2). unfold u2. auto_derive. lra. Qed.
Lemma turn_at : continuous turn 0 /\ turn 0 = 0.
Proof.
  pose proof z_pos as Z. assert (V : v0 z 0 = z ^ 2) by (unfold v0, u1; field). split.
  - apply (ex_derive_continuous turn). unfold turn, v0, u1, u2, a1, a2, a3. auto_derive. rewrite ?Ropp_0, ?Rplus_0_r, sqrt_1. replace (z * z * (1 * / 1) * (1 * / 1) * (1 * / 1)) with (z ^ 2) by field. pose proof (pow_lt z 2 Z). repeat split; lra.
  - unfold turn. rewrite V, u2_0. replace (sqrt (z ^ 2)) with z by (symmetry; apply sqrt_pow2; lra). replace (1 + 1) with 2 by ring. unfold a1, a2, a3, z. field. lra.
Qed.
Lemma mm_at : continuous (mm z) 0 /\ mm z 0 = 1.
Proof.
  split.
  - apply (ex_derive_continuous (mm z)). unfold mm, psi, w0, v0, u1, u2, b1, b2, b3. auto_derive. rewrite ?Ropp_0, ?Rplus_0_r, !sqrt_1. repeat split; lra.
  - unfold mm. rewrite u2_0, sqrt_1. unfold psi. replace (0 * w0 z 0 * _) with 0 by ring. rewrite exp_0. field.
Qed.
Lemma P4_at : continuous (P4 z) 0 /\ P4 z 0 = 0.
Proof.
  split; [|unfold P4, p1, p3, p5, p7, over, n1, n3, n5, n7; field].
  destruct (poly_derives 0) as (D1 & D3 & D5 & D7 & _). apply (ex_derive_continuous (P4 z)). eexists. unfold P4.
  apply (is_derive_plus (fun x => z * p1 x + z ^ 3 * p3 x + z ^ 5 * p5 x)); [apply (is_derive_plus (fun x => z * p1 x + z ^ 3 * p3 x)); [apply (is_derive_plus (fun x => z * p1 x))|]|]; apply is_derive_scal; apply over_derive; (lra || eassumption).
Qed.
Lemma Q4_at : continuous (Q4 z) 0 /\ Q4 z 0 = 1.
Proof.
  split; [|unfold Q4; rewrite u2_0; unfold q2, q4, q6, over, m2, m4, m6; field].
  destruct (poly_derives 0) as (_ & _ & _ & _ & D2 & D4 & D6). unfold Q4. apply (continuous_mult u2); [exact u2_at|]. apply (ex_derive_continuous (fun x => 1 + z ^ 2 * q2 x + z ^ 4 * q4 x + z ^ 6 * q6 x)). eexists.
  apply (is_derive_plus (fun x => 1 + z ^ 2 * q2 x + z ^ 4 * q4 x)); [apply (is_derive_plus (fun x => 1 + z ^ 2 * q2 x)); [apply (is_derive_plus (fun _ => 1)); [apply @is_derive_const|]|]|]; apply is_derive_scal; apply over_derive; (lra || eassumption).
Qed.
Lemma to_0 (h : R -> R) l : continuous h 0 /\ h 0 = l -> is_lim (fun r => h (2 * y / r)) p_infty l.
Proof.
  intros [C E]. rewrite <- E. assert (L : is_lim (fun r => 2 * y / r) p_infty 0).
  { apply (vanishes (2 * y) (fun r => 2 * y / r) 1); [lra | lra|]. intros r Hr. rewrite Rabs_pos_eq by (apply Rdiv_le_0_compat; lra). lra. }
  unfold is_lim in *. eapply filterlim_comp; [exact L | exact C].
Qed.
Lemma below (F h : R -> R) : (forall r, 2 * y < r -> Rabs (F r) <= h (2 * y / r)) -> continuous h 0 /\ h 0 = 0 -> is_lim F p_infty 0.
Proof.
  intros H C. apply to_0 in C. apply is_lim_spec in C. apply is_lim_spec. intros e. destruct (C e) as (M & HM). exists (Rmax M (2 * y)). intros r Hr. assert (R1 : M < r) by (eapply Rle_lt_trans; [apply Rmax_l | exact Hr]). assert (R2 : 2 * y < r) by (eapply Rle_lt_trans; [apply Rmax_r | exact Hr]).
  specialize (HM r R1). cbv beta in HM. rewrite Rminus_0_r in *. specialize (H r R2). apply Rabs_lt_between in HM. lra.
Qed.
Lemma cos_close a b : Rabs (cos a - cos b) <= Rabs (a - b).
Proof. pose proof (chord a b) as C. pose proof (pow2_ge_0 (sin a - sin b)). apply Rsqr_le_abs_0. unfold Rsqr. lra. Qed.
Lemma sin_close a b : Rabs (sin a - sin b) <= Rabs (a - b).
Proof. pose proof (chord a b) as C. pose proof (pow2_ge_0 (cos a - cos b)). apply Rsqr_le_abs_0. unfold Rsqr. lra. Qed.
Lemma continuous_abs0 (f : R -> R) : continuous f 0 -> continuous (fun x => Rabs (f x)) 0.
Proof. intros C. apply (continuous_comp f Rabs); [exact C | apply continuous_Rabs]. Qed.
Lemma f4_far : is_lim (fun r => f4 y r - cos (theta y (s_far y) r)) p_infty 0.
Proof.
  apply (below _ (fun x => Rabs (mm z x - 1) + Rabs (turn x))).
  - intros r Hr. rewrite f4_value. fold z. rewrite fai_turn by exact Hr. set (a := theta y (s_far y) r). set (t := turn (2 * y / r)). set (m := mm z (2 * y / r)).
    replace (m * cos (a + t) - cos a) with ((m - 1) * cos (a + t) + (cos (a + t) - cos a)) by ring. eapply Rle_trans; [apply Rabs_triang|]. apply Rplus_le_compat.
    + rewrite Rabs_mult. pose proof (proj1 (trig_le (a + t))). pose proof (Rabs_pos (m - 1)). nra.
    + eapply Rle_trans; [apply cos_close|]. right. f_equal. ring.
  - split.
    + apply (continuous_plus (fun x => Rabs (mm z x - 1))); apply continuous_abs0; [|apply turn_at]. apply (continuous_minus (mm z) (fun _ => 1)); [apply mm_at | apply continuous_const].
    + rewrite (proj2 mm_at), (proj2 turn_at), Rminus_diag_eq, Rabs_R0 by reflexivity. ring.
Qed.
Lemma g4_far : is_lim (fun r => g4 y r + sin (theta y (s_far y) r)) p_infty 0.
Proof.
  apply (below _ (fun x => Rabs (P4 z x * mm z x) + (Rabs (1 - Q4 z x * mm z x) + Rabs (turn x)))).
  - intros r Hr. unfold g4. cbv zeta. fold z. rewrite fai_turn by exact Hr. set (a := theta y (s_far y) r). set (t := turn (2 * y / r)). set (m := mm z (2 * y / r)). set (p := P4 z (2 * y / r)). set (q := Q4 z (2 * y / r)).
    replace (- (p * (m * cos (a + t)) + q * (m * sin (a + t))) + sin a) with (- (p * m) * cos (a + t) + ((1 - q * m) * sin (a + t) + - (sin (a + t) - sin a))) by ring. 
    destruct (trig_le (a + t)) as [C S]. eapply Rle_trans; [apply Rabs_triang|]. apply Rplus_le_compat; [|eapply Rle_trans; [apply Rabs_triang|]; apply Rplus_le_compat].
    + rewrite Rabs_mult, Rabs_Ropp. pose proof (Rabs_pos (p * m)). nra.
    + rewrite Rabs_mult. pose proof (Rabs_pos (1 - q * m)). nra.
    + rewrite Rabs_Ropp. eapply Rle_trans; [apply sin_close|]. right. f_equal. ring.
  - destruct mm_at as [M M0]. destruct P4_at as [P P0]. destruct Q4_at as [Q Q0]. destruct turn_at as [T T0]. split.
    + apply (continuous_plus (fun x => Rabs (P4 z x * mm z x))); [|apply (continuous_plus (fun x => Rabs (1 - Q4 z x * mm z x)))]; apply continuous_abs0; [apply (continuous_mult (P4 z) (mm z)); assumption | | exact T].
      apply (continuous_minus (fun _ => 1) (fun x => Q4 z x * mm z x)); [apply continuous_const | apply (continuous_mult (Q4 z) (mm z)); assumption].
    + rewrite M0, P0, Q0, T0. replace (0 * 1) with 0 by ring. replace (1 - 1 * 1) with 0 by ring. rewrite Rabs_R0. ring.
Qed.
End Far.

(** * The accuracy *)
Lemma order_le d z : 1 / 3 <= d <= 1 -> 0 <= z <= 1 / 10 -> z * (1 - d) <= (5 * d - 1) / 30 -> z ^ 5 * (1 - d) ^ 4 <= 17 / 100000 * d ^ 8.
Proof.
  intros Hd Hz H. destruct (Rle_lt_dec (1 / 2) d) as [D|D].
  - assert (A : z ^ 5 <= (1 / 10) ^ 5) by (apply pow_incr; lra). assert (B : (1 - d) ^ 4 <= (1 / 2) ^ 4) by (apply pow_incr; lra). assert (C : (1 / 2) ^ 8 <= d ^ 8) by (apply pow_incr; lra).
    assert (A0 : 0 <= z ^ 5) by (apply pow_le; lra). assert (B0 : 0 <= (1 - d) ^ 4) by (apply pow_le; lra). apply (Rle_trans _ ((1 / 10) ^ 5 * (1 / 2) ^ 4)); [apply Rmult_le_compat; assumption | lra].
  - assert (A : (z * (1 - d)) ^ 5 <= ((5 * d - 1) / 30) ^ 5) by (apply pow_incr; split; [apply Rmult_le_pos; lra | exact H]).
    assert (E : 2 * ((5 * d - 1) / 30) ^ 5 <= 17 / 100000 * d ^ 8).
    { set (e := 1 / 2 - d). assert (He : 0 <= e <= 1 / 6) by (unfold e; lra). replace d with (1 / 2 - e) by (unfold e; ring). clearbody e. clear - He.
      assert (X : (1 - 5 / 3 * e) ^ 5 <= (1 - 2 * e) ^ 4).
      { assert (B : (1 - 2 * e) ^ 4 - (1 - 5 / 3 * e) ^ 5 = e * (1 / 3 * (1 - 6 * e) ^ 4 + 19 / 27 * ((6 * e) * (1 - 6 * e) ^ 3) + 247 / 486 * ((6 * e) ^ 2 * (1 - 6 * e) ^ 2) + 2347 / 17496 * ((6 * e) ^ 3 * (1 - 6 * e)) + 1955 / 314928 * (6 * e) ^ 4)) by field.
        assert (P : 0 <= 6 * e <= 1) by lra. generalize dependent (6 * e). intros t B P.
        assert (0 <= (1 - t) ^ 4) by (apply pow_le; lra). assert (0 <= t * (1 - t) ^ 3) by (apply Rmult_le_pos; [lra | apply pow_le; lra]). assert (0 <= t ^ 2 * (1 - t) ^ 2) by (apply Rmult_le_pos; apply pow_le; lra). assert (0 <= t ^ 3 * (1 - t)) by (apply Rmult_le_pos; [apply pow_le|]; lra). assert (0 <= t ^ 4) by (apply pow_le; lra).
        cut (0 <= (1 - 2 * e) ^ 4 - (1 - 5 / 3 * e) ^ 5); [lra|]. rewrite B. apply Rmult_le_pos; lra. }
      assert (Y : 1 - 10 / 3 * e <= (1 - 5 / 3 * e) ^ 2) by nra. assert (Y5 : (1 - 10 / 3 * e) ^ 5 <= ((1 - 5 / 3 * e) ^ 2) ^ 5) by (apply pow_incr; lra).
      assert (X2 : ((1 - 5 / 3 * e) ^ 5) ^ 2 <= ((1 - 2 * e) ^ 4) ^ 2) by (apply pow_incr; split; [apply pow_le; lra | exact X]).
      replace (2 * ((5 * (1 / 2 - e) - 1) / 30) ^ 5) with (2 * (1 / 20) ^ 5 * (1 - 10 / 3 * e) ^ 5) by field. replace (17 / 100000 * (1 / 2 - e) ^ 8) with (17 / 100000 * (1 / 2) ^ 8 * ((1 - 2 * e) ^ 4) ^ 2) by field.
      replace (((1 - 5 / 3 * e) ^ 2) ^ 5) with (((1 - 5 / 3 * e) ^ 5) ^ 2) in Y5 by ring. assert (P : 0 <= ((1 - 2 * e) ^ 4) ^ 2) by apply pow2_ge_0. lra. }
    assert (Z5 : 0 <= (z * (1 - d)) ^ 5) by (apply pow_le, Rmult_le_pos; lra). assert (W : 0 <= z ^ 5 * (1 - d) ^ 4) by (apply Rmult_le_pos; apply pow_le; lra).
    assert (Q : (z * (1 - d)) ^ 5 = z ^ 5 * (1 - d) ^ 4 * (1 - d)) by ring. assert (z ^ 5 * (1 - d) ^ 4 * (1 / 2) <= (z * (1 - d)) ^ 5) by (rewrite Q; apply Rmult_le_compat_l; lra). lra.
Qed.
Theorem oscillation_near y r G G1 : 5 <= y <= 15 -> 25 / 10 * y + 75 / 10 <= r -> irregular y G G1 -> Rabs (g4 y r - G1 r) <= / 1000 /\ Rabs (f4 y r - G r) <= / 1000.
Proof.
  intros Hy Hr I. destruct (SigmaProofs.phase_exists y) as (sigma & Hs & _). destruct (ir_far _ _ _ I sigma Hs) as [F F1].
  set (z := 1 / (2 * y)). set (xa := 2 * y / r). set (K := 28 / 3 * (z ^ 6 / (1 - xa) ^ 8)).
  assert (Rg : forall r', r <= r' -> let x := 2 * y / r' in 1 / 30 <= z <= 1 / 10 /\ 0 < x <= 2 / 3 /\ z * x <= (4 - 5 * x) / 30 /\ x <= xa).
  { intros r' H x. destruct (region y r' Hy ltac:(lra)) as (A & B & C). fold z x in A, B, C. repeat split; try lra. unfold x, xa, Rdiv. apply Rmult_le_compat_l; [lra|]. apply Rinv_le_contravar; lra. }
  destruct (Rg r ltac:(lra)) as (Z & X & ZX & _). fold xa in X, ZX.
  pose proof (s_far_close y sigma ltac:(lra) Hs) as S.
  assert (S' : Rabs (s_far y - sigma) <= / 1000000).
  { eapply Rle_trans; [exact S|]. assert (/ y ^ 3 <= / 5 ^ 3) by (apply Rinv_le_contravar; [lra | apply pow_incr; lra]). lra. }
  assert (N : Rabs (g4 y r - G1 r) <= Rabs (s_far y - sigma) + K * xa ^ 4 / (4 * z) /\ sqrt (1 - 2 * y / r) * Rabs (f4 y r - G r) <= Rabs (s_far y - sigma) + K * xa ^ 4 / (4 * z)).
  { apply (near y r (Rabs (s_far y - sigma)) (f4 y) (g4 y) (rest4 y) G G1 (fun r => K * (2 * y / r) ^ 4 / (4 * z)) (fun r => - (K * (2 * y / r) ^ 5))); try lra.
    - intros t Ht. apply f4_slope. lra.
    - intros t Ht. apply g4_slope. lra.
    - intros t Ht. apply (ir_slope _ _ _ I). lra.
    - intros t Ht. apply (ir_equation _ _ _ I). lra.
    - intros t Ht. unfold z. generalize K. intros k. auto_derive; [repeat split; lra|]. field. lra.
    - intros t Ht. rewrite Ropp_involutive. destruct (Rg t Ht) as (_ & X' & _ & L). eapply Rle_trans; [apply rest4_le; lra|]. fold z. set (x := 2 * y / t) in *. unfold K. rewrite Rmult_assoc. apply Rmult_le_compat_l; [lra|]. unfold Rdiv. rewrite !Rmult_assoc. apply Rmult_le_compat_l; [apply pow_le; lra|]. rewrite Rmult_comm. apply Rmult_le_compat_r; [apply pow_le; lra|].
      apply Rinv_le_contravar; [apply pow_lt; lra | apply pow_incr; lra].
    - assert (E : is_lim (fun t => (fun x => K * x ^ 4 / (4 * z)) (2 * y / t)) p_infty 0); [|exact E]. apply (to_0 y ltac:(lra) (fun x => K * x ^ 4 / (4 * z))). split; [|field; lra]. apply (ex_derive_continuous (fun x => K * x ^ 4 / (4 * z))). generalize K. intros k. auto_derive. exact Logic.I.
    - apply Rabs_pos.
    - apply (far_pair y (s_far y) sigma); [apply f4_far; lra | apply g4_far; lra | exact F | exact F1]. }
  assert (B : K * xa ^ 4 / (4 * z) <= 4 / 10000).
  { pose proof (order_le (1 - xa) z ltac:(lra) ltac:(lra) ltac:(lra)) as O. replace (1 - (1 - xa)) with xa in O by ring. assert (D : 0 < (1 - xa) ^ 8) by (apply pow_lt; lra).
    replace (K * xa ^ 4 / (4 * z)) with (7 / 3 * (z ^ 5 * xa ^ 4) / (1 - xa) ^ 8) by (unfold K; field; lra). apply (Rmult_le_reg_r ((1 - xa) ^ 8)); [exact D|]. unfold Rdiv at 1. rewrite Rmult_assoc, Rinv_l by lra. lra. }
  destruct N as [N1 N0]. split; [lra|]. fold xa in N0. assert (Q : 57 / 100 <= sqrt (1 - xa)) by (rewrite <- (sqrt_pow2 (57 / 100)) by lra; apply sqrt_le_1_alt; lra). pose proof (Rabs_pos (f4 y r - G r)). nra.
Qed.
