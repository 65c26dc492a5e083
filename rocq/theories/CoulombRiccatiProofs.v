(** The Riccati expansions that start the Coulomb wave functions below the turning point. *)
From Coq Require Import ZArith Reals Bool Lia Lra.
From Coquelicot Require Import Coquelicot.
From Verif Require Import ListFacts CoulombWaveModel CoulombWaveSpec CoulombExactModel CoulombExactProofs CoulombRealProofs.
Open Scope R_scope.

(** * The coefficients as functions of t = rho / (2 eta) *)
Definition s3 (t : R) : R := sqrt (t * (1 - t) * (1 - t) * (1 - t)).
Definition c0 (t : R) : R := sqrt (t * (1 - t)) + asin (sqrt t) - @PI_2 real.
Definition c1 (t : R) : R := ln (t / (1 - t)) / 4.
Definition c2 (t : R) : R := - (8 * t * t - 12 * t + 9) / (48 * s3 t).
Definition c3 (t : R) : R := (8 * t - 3) / (64 * (t * (1 - t) * (1 - t) * (1 - t))).
Definition c4 (t : R) : R := (t * (t * (t * (t * (t * (2048 * t - 9216) + 16128) - 13440) - 12240) + 7560) - 1890) / (92160 * (t * (1 - t) * (1 - t) * (1 - t)) * s3 t).
Definition c5 (t : R) : R := 3 * (t * (t * (1024 * t - 448) + 208) - 39) / (8192 * (t * (1 - t) * (1 - t) * (1 - t)) * (t * (1 - t) * (1 - t) * (1 - t))).
Definition c6 (t : R) : R := - (t * (t * (t * (t * (t * (t * (t * (t * (t * (262144 * t - 1966080) + 6389760) - 11714560)
                 + 13178880) - 9225216) + 13520640) - 3588480) + 2487240) - 873180) + 130977)
  / (10321920 * (t * (1 - t) * (1 - t) * (1 - t)) * (t * (1 - t) * (1 - t) * (1 - t)) * s3 t).
Definition c7 (t : R) : R := (t * (t * (t * (t * (1105920 * t - 55296) + 314624) - 159552) + 45576) - 5697)
  / (393216 * (t * (1 - t) * (1 - t) * (1 - t)) * (t * (1 - t) * (1 - t) * (1 - t)) * (t * (1 - t) * (1 - t) * (1 - t))).
(** What the code uses for their derivatives *)
Definition d0 (t : R) : R := sqrt ((1 - t) / t).
Definition d1 (t : R) : R := 1 / (4 * t * (1 - t)).
Definition d2 (t : R) : R := - (8 * t - 3) / (32 * sqrt (Rpower t 3 * Rpower (1 - t) 5)).
Definition d3 (t : R) : R := 3 * (8 * t * t - 4 * t + 1) / (64 * t * t * Rpower (1 - t) 4).
Definition d4 (t : R) : R := - (t * (t * (1536 * t - 704) + 336) - 63) / (2048 * sqrt (Rpower t 5 * Rpower (1 - t) 11)).
Definition d5 (t : R) : R := 3 * (t * (t * (t * (2560 * t - 832) + 728) - 260) + 39) / (4096 * t * t * t * Rpower (1 - t) 7).
Definition d6 (t : R) : R := (t * (t * (t * (t * (- 368640 * t - 30720) + 114944) - 57792) + 16632) - 2079) / (65536 * sqrt (Rpower t 7 * Rpower (1 - t) 17)).
Definition d7 (t : R) : R := 3 * (t * (t * (t * (t * (t * (860160 * t + 196608) + 308480) - 177280) + 73432) - 17724) + 1899) / (131072 * Rpower t 4 * Rpower (1 - t) 10).
Definition qq (y t : R) : R :=
  - 2 * y * c0 t + c1 t - 1 / (2 * y) * (c2 t - 1 / (2 * y) * (c3 t - 1 / (2 * y) * (c4 t - 1 / (2 * y) * (c5 t - 1 / (2 * y) * (c6 t - c7 t * (1 / (2 * y))))))).
Definition dq (y t : R) : R :=
  - 2 * y * d0 t + d1 t - 1 / (2 * y) * (d2 t - 1 / (2 * y) * (d3 t - 1 / (2 * y) * (d4 t - 1 / (2 * y) * (d5 t - 1 / (2 * y) * (d6 t - d7 t * (1 / (2 * y))))))).

Lemma case1_real ra y : omGcase1 real ra y =
  if Rltb 100 (qq y (ra * (1 / (2 * y)))) then (0, 0)
  else (exp (qq y (ra * (1 / (2 * y)))), exp (qq y (ra * (1 / (2 * y)))) * (1 / (2 * y)) * dq y (ra * (1 / (2 * y)))).
Proof. reflexivity. Qed.

(** * Everything is finite below the turning point *)
Ltac pos := repeat first [assumption | lra | apply Rmult_lt_0_compat | apply Rdiv_lt_0_compat].
Section Case1.
Variables ra y : R.
Hypothesis H : 0 < ra < 2 * y.
Lemma t_range : 0 < ra * (1 / (2 * y)) < 1.
Proof.
  split; [apply Rmult_lt_0_compat; [lra|]; apply Rdiv_lt_0_compat; lra|]. replace (ra * (1 / (2 * y))) with (ra / (2 * y)) by (field; lra). apply (Rmult_lt_reg_r (2 * y)); [lra|].
  unfold Rdiv. rewrite Rmult_assoc, Rinv_l by lra. lra.
Qed.
Lemma Rpower_pos a b : 0 < Rpower a b.
Proof. apply exp_pos. Qed.
Lemma case1_lift : omGcase1 exact (Fin ra) (Fin y) = lifted (omGcase1 real ra y).
Proof.
  pose proof t_range as Ht. set (rhs := lifted _). cbv beta delta [omGcase1].
  bind_let z1 ltac:(cbn [real_dec]; lra).
  bind_let u ltac:(idtac).
  bind_let u1 ltac:(idtac).
  assert (Hu : 0 < u < 1) by exact Ht. assert (Hu1 : 0 < u1 < 1) by (unfold u1; cbn [real_dec]; lra).
  bind_let u2 ltac:(idtac).
  assert (Hu2 : 0 < u2) by (unfold u2; apply Rmult_lt_0_compat; [apply Rmult_lt_0_compat; [apply Rmult_lt_0_compat|]|]; lra).
  bind_let u3 ltac:(lra).
  assert (Hu3 : 0 < u3) by (apply sqrt_lt_R0; exact Hu2).
  assert (Hs : 0 <= sqrt u <= 1) by (split; [apply sqrt_pos | rewrite <- sqrt_1; apply sqrt_le_1; lra]).
  assert (P : 0 < u * u1) by nra. assert (P23 : 0 < u2 * u3) by nra. assert (P22 : 0 < u2 * u2) by nra. assert (P223 : 0 < u2 * u2 * u3) by nra. assert (P222 : 0 < u2 * u2 * u2) by nra.
  bind_let g0 ltac:(first [nra | apply Rabs_le; lra]).
  bind_let g1 ltac:(first [apply Rdiv_lt_0_compat; lra | cbn [real_dec]; lra]).
  bind_let g2 ltac:(cbn [real_dec]; nra).
  bind_let g3 ltac:(cbn [real_dec]; nra).
  bind_let g4 ltac:(cbn [real_dec]; nra).
  bind_let g5 ltac:(cbn [real_dec]; nra).
  bind_let g6 ltac:(cbn [real_dec]; nra).
  bind_let g7 ltac:(cbn [real_dec]; nra).
  bind_let q ltac:(idtac).
  assert (W : forall a b : R, 0 < sqrt (Rpower u a * Rpower u1 b)) by (intros; apply sqrt_lt_R0, Rmult_lt_0_compat; apply Rpower_pos).
  assert (N : forall a : R, 0 < a -> a <> 0) by (intros; lra).
  change (lt #100%num (Fin q)) with (Rltb 100 q). destruct (Rltb 100 q) eqn:C.
  { unfold rhs. rewrite case1_real. change (qq y (ra * (1 / (2 * y)))) with q. rewrite C. reflexivity. }
  bind_let p0 ltac:(idtac).
  bind_let k0 ltac:(first [apply Rlt_le, Rdiv_lt_0_compat; lra | lra]).
  bind_let k1 ltac:(cbn [real_dec]; nra).
  bind_let k2 ltac:(first [lra | cbn [real_dec]; apply N, Rmult_lt_0_compat; [lra | apply W] | apply Rlt_le, Rmult_lt_0_compat; apply Rpower_pos]).
  bind_let k3 ltac:(first [lra | cbn [real_dec]; apply N, Rmult_lt_0_compat; [nra | apply Rpower_pos]]).
  bind_let k4 ltac:(first [lra | cbn [real_dec]; apply N, Rmult_lt_0_compat; [lra | apply W] | apply Rlt_le, Rmult_lt_0_compat; apply Rpower_pos]).
  bind_let k5 ltac:(first [lra | cbn [real_dec]; apply N, Rmult_lt_0_compat; [apply Rmult_lt_0_compat; [apply Rmult_lt_0_compat; [apply Rmult_lt_0_compat|]|]; lra | apply Rpower_pos]]).
  bind_let k6 ltac:(first [lra | cbn [real_dec]; apply N, Rmult_lt_0_compat; [lra | apply W] | apply Rlt_le, Rmult_lt_0_compat; apply Rpower_pos]).
  bind_let k7 ltac:(first [lra | cbn [real_dec]; apply N, Rmult_lt_0_compat; [apply Rmult_lt_0_compat; [lra | apply Rpower_pos] | apply Rpower_pos]]).
  unfold rhs. rewrite case1_real. change (qq y (ra * (1 / (2 * y)))) with q. rewrite C. reflexivity.
Qed.
End Case1.

(** * The derivatives *)
Ltac real_eq := match goal with |- @eq _ ?a ?b => change (@eq R a b) end.
Section Derivatives.
Variable t : R.
Hypothesis Ht : 0 < t < 1.
Lemma s3_pos : 0 < s3 t.
Proof. unfold s3. apply sqrt_lt_R0. apply Rmult_lt_0_compat; [apply Rmult_lt_0_compat; [apply Rmult_lt_0_compat|]|]; lra. Qed.
Lemma s3_sq : s3 t * s3 t = t * (1 - t) * (1 - t) * (1 - t).
Proof. unfold s3. apply sqrt_sqrt. apply Rlt_le. apply Rmult_lt_0_compat; [apply Rmult_lt_0_compat; [apply Rmult_lt_0_compat|]|]; lra. Qed.
Lemma s3_derive : is_derive s3 t (s3 t * ((1 - 4 * t) / (2 * t * (1 - t)))).
Proof.
  pose proof s3_pos as P. pose proof s3_sq as Q. unfold s3 at 1. auto_derive; [apply Rmult_lt_0_compat; [apply Rmult_lt_0_compat; [apply Rmult_lt_0_compat|]|]; lra|].
  change (sqrt (t * (1 + - t) * (1 + - t) * (1 + - t))) with (s3 t). set (s := s3 t) in *.
  apply (Rmult_eq_reg_l s); [|lra]. replace (s * (s * ((1 - 4 * t) / (2 * t * (1 - t))))) with (s * s * ((1 - 4 * t) / (2 * t * (1 - t)))) by ring. rewrite Q. field. lra.
Qed.
(** a quotient by the root *)
Lemma over_s3 (f : R -> R) df : is_derive f t df -> is_derive (fun x => f x / s3 x) t ((df - f t * ((1 - 4 * t) / (2 * t * (1 - t)))) / s3 t).
Proof.
  intros D. pose proof s3_pos as P. evar_last; [apply is_derive_div; [exact D | exact s3_derive | lra]|]. field. lra.
Qed.
Lemma power_nat x n r : 0 < x -> r = INR n -> Rpower x r = x ^ n.
Proof. intros Hx ->. apply Rpower_pow. exact Hx. Qed.
Lemma root_power a b (k m : nat) : a = INR (2 * k + 1) -> b = INR (2 * m + 3) -> sqrt (Rpower t a * Rpower (1 - t) b) = t ^ k * (1 - t) ^ m * s3 t.
Proof.
  intros -> ->. rewrite !Rpower_pow by lra. rewrite <- (sqrt_square (t ^ k * (1 - t) ^ m)) by (apply Rlt_le, Rmult_lt_0_compat; apply pow_lt; lra).
  unfold s3. rewrite <- sqrt_mult_alt by (apply Rle_0_sqr). f_equal. replace (2 * k + 1)%nat with (k + k + 1)%nat by lia. replace (2 * m + 3)%nat with (m + m + 3)%nat by lia. rewrite !pow_add. ring.
Qed.
Lemma c0_derive : is_derive c0 t (d0 t).
Proof.
  unfold c0, d0. assert (P : 0 < t * (1 - t)) by nra. assert (S1 : 0 < sqrt t) by (apply sqrt_lt_R0; lra). assert (S2 : sqrt t * sqrt t = t) by (apply sqrt_sqrt; lra).
  assert (S3 : 0 < sqrt (1 - t)) by (apply sqrt_lt_R0; lra). assert (S4 : sqrt (1 - t) * sqrt (1 - t) = 1 - t) by (apply sqrt_sqrt; lra). assert (S5 : sqrt t < 1) by nra.
  assert (DA : is_derive (fun x => asin (sqrt x)) t (/ (2 * sqrt t) * / sqrt (1 - t))).
  { evar_last; [apply (is_derive_comp asin sqrt); [apply is_derive_Reals, (derive_pt_eq_1 _ _ _ (derivable_pt_asin (sqrt t) ltac:(lra))), derive_pt_asin | auto_derive; [lra | reflexivity]]|].
    unfold scal; cbn. unfold mult; cbn. unfold Rsqr. rewrite S2. field. lra. }
  evar_last; [apply @is_derive_minus; [apply @is_derive_plus; [|exact DA]|apply @is_derive_const]|].
  { auto_derive; [lra|reflexivity]. }
  unfold minus, plus, opp, zero; cbn. rewrite sqrt_div_alt by lra. replace (1 + - t) with (1 - t) by ring. rewrite sqrt_mult_alt by lra.
  set (a := sqrt t) in *. set (b := sqrt (1 - t)) in *. replace (b / a) with (b * b / (a * b)) by (field; lra). rewrite S4. field. lra.
Qed.
Lemma c1_derive : is_derive c1 t (d1 t).
Proof. unfold c1, d1. auto_derive; [split; [lra|]; split; [apply Rdiv_lt_0_compat; lra | exact I]|]. field. lra. Qed.
Lemma c2_derive : is_derive c2 t (d2 t).
Proof.
  pose proof s3_pos as P. apply (is_derive_ext (fun x => (fun x => - (8 * x * x - 12 * x + 9) / 48) x / s3 x)).
  { intros x. unfold c2, Rdiv. rewrite Rinv_mult. real_eq. ring. }
  evar_last; [apply over_s3; auto_derive; [exact I | reflexivity]|]. unfold d2. rewrite (root_power 3 5 1 1) by (cbn; ring). field. lra.
Qed.
Lemma c3_derive : is_derive c3 t (d3 t).
Proof.
  unfold c3, d3. rewrite (power_nat _ 4) by (cbn; lra). auto_derive.
  - apply Rgt_not_eq. pos.
  - field. lra.
Qed.
Lemma c4_derive : is_derive c4 t (d4 t).
Proof.
  pose proof s3_pos as P. apply (is_derive_ext (fun x => (fun x => (x * (x * (x * (x * (x * (2048 * x - 9216) + 16128) - 13440) - 12240) + 7560) - 1890) / (92160 * (x * (1 - x) * (1 - x) * (1 - x)))) x / s3 x)).
  { intros x. unfold c4, Rdiv. rewrite !Rinv_mult. real_eq. ring. }
  evar_last; [apply over_s3; auto_derive; [apply Rgt_not_eq; pos | reflexivity]|]. unfold d4. rewrite (root_power 5 11 2 4) by (cbn; ring). field. lra.
Qed.
Lemma c5_derive : is_derive c5 t (d5 t).
Proof.
  unfold c5, d5. rewrite (power_nat _ 7) by (cbn; lra). auto_derive.
  - apply Rgt_not_eq. pos.
  - field. lra.
Qed.
(** In the sixth, all signs but the first are wrong: *)
Lemma s3_pow x : sqrt (x * (1 - x) ^ 3) = s3 x.
Proof. unfold s3. f_equal. ring. Qed.
Lemma c6_derive : is_derive c6 t (d6 t - slip t).
Proof.
  pose proof s3_pos as P. apply (is_derive_ext (fun x => (fun x => - (x * (x * (x * (x * (x * (x * (x * (x * (x * (262144 * x - 1966080) + 6389760) - 11714560)
                 + 13178880) - 9225216) + 13520640) - 3588480) + 2487240) - 873180) + 130977)
    / (10321920 * (x * (1 - x) * (1 - x) * (1 - x)) * (x * (1 - x) * (1 - x) * (1 - x)))) x / s3 x)).
  { intros x. unfold c6, Rdiv. rewrite !Rinv_mult. real_eq. ring. }
  evar_last; [apply over_s3; auto_derive; [apply Rgt_not_eq; pos | reflexivity]|]. unfold d6, slip. rewrite (root_power 7 17 3 7) by (cbn; ring). rewrite s3_pow. field. lra.
Qed.
Lemma c7_derive : is_derive c7 t (d7 t).
Proof.
  unfold c7, d7. rewrite (power_nat (1 - t) 10), (power_nat t 4) by (cbn; lra). auto_derive.
  - apply Rgt_not_eq. pos.
  - field. lra.
Qed.
End Derivatives.

(** * The value and the slope *)
Lemma qq_derive y t : y <> 0 -> 0 < t < 1 -> is_derive (qq y) t (dq y t + (1 / (2 * y)) ^ 5 * slip t).
Proof.
  intros Hy Ht. unfold qq, dq. set (z := 1 / (2 * y)).
  pose proof (c0_derive t Ht) as D0. pose proof (c1_derive t Ht) as D1. pose proof (c2_derive t Ht) as D2. pose proof (c3_derive t Ht) as D3.
  pose proof (c4_derive t Ht) as D4. pose proof (c5_derive t Ht) as D5. pose proof (c6_derive t Ht) as D6. pose proof (c7_derive t Ht) as D7.
  evar_last.
  { apply (is_derive_minus (fun t => - 2 * y * c0 t + c1 t) (fun t => z * (c2 t - z * (c3 t - z * (c4 t - z * (c5 t - z * (c6 t - c7 t * z))))))).
    { apply (is_derive_plus (fun t => - 2 * y * c0 t) c1); [apply is_derive_scal; exact D0 | exact D1]. }
    apply is_derive_scal. apply (is_derive_minus c2 (fun t => z * (c3 t - z * (c4 t - z * (c5 t - z * (c6 t - c7 t * z)))))); [exact D2|].
    apply is_derive_scal. apply (is_derive_minus c3 (fun t => z * (c4 t - z * (c5 t - z * (c6 t - c7 t * z))))); [exact D3|].
    apply is_derive_scal. apply (is_derive_minus c4 (fun t => z * (c5 t - z * (c6 t - c7 t * z)))); [exact D4|].
    apply is_derive_scal. apply (is_derive_minus c5 (fun t => z * (c6 t - c7 t * z))); [exact D5|].
    apply is_derive_scal. apply (is_derive_minus c6 (fun t => c7 t * z)); [exact D6|].
    apply (is_derive_ext (fun t => z * c7 t)); [intros; real_eq; ring|]. apply is_derive_scal. exact D7. }
  unfold minus, plus, opp, scal; cbn. unfold mult; cbn. ring.
Qed.
Definition f1 (y x : R) : R := fst (omGcase1 real x y).
Definition f1' (y x : R) : R := snd (omGcase1 real x y).
Lemma f1_low y x : qq y (x * (1 / (2 * y))) <= 100 -> f1 y x = exp (qq y (x * (1 / (2 * y)))) /\ f1' y x = f1 y x * (1 / (2 * y)) * dq y (x * (1 / (2 * y))).
Proof. intros H. unfold f1, f1'. rewrite case1_real, Rltb_false by exact H. auto. Qed.
Lemma f1_low_of y x : 0 < f1 y x < exp 100 -> qq y (x * (1 / (2 * y))) < 100.
Proof.
  intros H. unfold f1 in H. rewrite case1_real in H. unfold Rltb in H. destruct (Rlt_dec 100 (qq y (x * (1 / (2 * y))))); cbn [fst] in H; [lra|]. apply exp_lt_inv. lra.
Qed.
Lemma f1_derive y x : 0 < x < 2 * y -> 0 < f1 y x < exp 100 -> is_derive (f1 y) x (f1' y x + (1 / (2 * y)) ^ 6 * slip (x * (1 / (2 * y))) * f1 y x).
Proof.
  intros Hx Hf. pose proof (t_range x y Hx) as Ht. pose proof (f1_low_of y x Hf) as Q. set (z := 1 / (2 * y)) in *.
  assert (D : is_derive (fun x => qq y (x * z)) x (z * (dq y (x * z) + z ^ 5 * slip (x * z)))).
  { apply (is_derive_comp (qq y) (fun x => x * z)); [apply qq_derive; [lra | exact Ht]|]. auto_derive; [exact I | ring]. }
  destruct (f1_low y x ltac:(fold z; lra)) as [E1 E2]. fold z in E1, E2. rewrite E2, E1.
  apply (is_derive_ext_loc (fun x => exp (qq y (x * z)))).
  - assert (C : continuous (fun x => qq y (x * z)) x) by (apply (ex_derive_continuous (fun x => qq y (x * z))); eexists; exact D).
    assert (L : locally x (fun x => qq y (x * z) < 100)) by (apply (C (fun u => u < 100)); apply (open_lt 100); exact Q).
    apply (filter_imp (fun x => qq y (x * z) < 100)); [|exact L]. intros u Hu. destruct (f1_low y u ltac:(fold z; lra)) as [E _]. symmetry. exact E.
  - evar_last; [apply (is_derive_comp exp); [apply is_derive_exp | exact D]|]. unfold scal; cbn. unfold mult; cbn. ring.
Qed.
Theorem riccati_slope y : 0 < y -> exists f f1 : R -> R,
  (forall x, 0 < x < 2 * y -> omGcase1 exact (Fin x) (Fin y) = (Fin (f x), Fin (f1 x))) /\
  (forall x, 0 < x < 2 * y -> 0 < f x < exp 100 -> is_derive f x (f1 x + (1 / (2 * y)) ^ 6 * slip (x / (2 * y)) * f x)).
Proof.
  intros Hy. exists (f1 y), (f1' y). split; intros x Hx.
  - rewrite (case1_lift x y Hx). unfold lifted, f1, f1'. destruct (omGcase1 real x y). reflexivity.
  - intros Hf. replace (x / (2 * y)) with (x * (1 / (2 * y))) by (field; lra). apply f1_derive; assumption.
Qed.

(** At the middle, for eta = 20: *)
Lemma s3_half : s3 (1 / 2) = 1 / 4.
Proof. unfold s3. replace (1 / 2 * (1 - 1 / 2) * (1 - 1 / 2) * (1 - 1 / 2)) with (1 / 4 * (1 / 4)) by lra. apply sqrt_square. lra. Qed.
Lemma asin_pos x : 0 <= x <= 1 -> 0 <= asin x.
Proof.
  intros H. destruct (Rle_lt_dec 0 (asin x)) as [L|L]; [exact L|]. exfalso. pose proof (asin_bound x) as B. pose proof PI_RGT_0.
  assert (S : sin (asin x) = x) by (apply sin_asin; lra). assert (N : 0 < sin (- asin x)) by (apply sin_gt_0; lra). rewrite sin_neg, S in N. lra.
Qed.
Lemma qq_half : qq 20 (1 / 2) < 100.
Proof.
  unfold qq. assert (A : 0 <= asin (sqrt (1 / 2))). { apply asin_pos. split; [apply sqrt_pos|]. apply Rle_trans with (sqrt 1); [apply sqrt_le_1; lra | rewrite sqrt_1; lra]. }
  assert (C0 : - (1571 / 1000) <= c0 (1 / 2)). { unfold c0. pose proof (sqrt_pos (1 / 2 * (1 - 1 / 2))). assert (@PI_2 real <= 1571 / 1000) by (cbv [PI_2 real dec real_dec]; lra). lra. }
  assert (C1 : c1 (1 / 2) = 0) by (unfold c1; replace (1 / 2 / (1 - 1 / 2)) with 1 by lra; rewrite ln_1; lra).
  assert (C2 : c2 (1 / 2) = - 5 / 12) by (unfold c2; rewrite s3_half; lra). assert (C3 : c3 (1 / 2) = 1 / 4) by (unfold c3; lra).
  assert (C4 : - 20 <= c4 (1 / 2) <= 20) by (unfold c4; rewrite s3_half; lra). assert (C5 : - 20 <= c5 (1 / 2) <= 20) by (unfold c5; lra).
  assert (C6 : - 200 <= c6 (1 / 2) <= 200) by (unfold c6; rewrite s3_half; lra). assert (C7 : - 2000 <= c7 (1 / 2) <= 2000) by (unfold c7; lra).
  rewrite C1, C2, C3. lra.
Qed.
Theorem riccati_slope_wrong : exists y x f f1, 0 < x < 2 * y /\
  (forall x, 0 < x < 2 * y -> omGcase1 exact (Fin x) (Fin y) = (Fin (f x), Fin (f1 x))) /\ ~ is_derive f x (f1 x).
Proof.
  exists 20, 20. exists (f1 20), (f1' 20). split; [lra|]. split.
  { intros x Hx. rewrite (case1_lift x 20 Hx). unfold lifted, f1, f1'. destruct (omGcase1 real x 20). reflexivity. }
  assert (T : 20 * (1 / (2 * 20)) = 1 / 2) by lra. pose proof qq_half as Q.
  destruct (f1_low 20 20) as [E _]; [rewrite T; lra|]. rewrite T in E.
  assert (P : 0 < f1 20 20 < exp 100) by (rewrite E; split; [apply exp_pos | apply exp_increasing; exact Q]).
  pose proof (f1_derive 20 20 ltac:(lra) P) as D. intros D'. apply is_derive_unique in D. apply is_derive_unique in D'. rewrite D' in D. rewrite T in D.
  assert (S : 0 < slip (1 / 2)). { unfold slip. rewrite s3_pow, s3_half. lra. }
  assert (0 < (1 / (2 * 20)) ^ 6 * slip (1 / 2) * f1 20 20) by (apply Rmult_lt_0_compat; [apply Rmult_lt_0_compat; [apply pow_lt; lra | exact S] | lra]). lra.
Qed.

(** * The order of the expansion *)
Definition coefficient (n : nat) (t : R) : R :=
  match n with
  | 0%nat => - d0 t | 1%nat => d1 t | 2%nat => - d2 t | 3%nat => d3 t
  | 4%nat => - d4 t | 5%nat => d5 t | 6%nat => - d6 t | 7%nat => d7 t
  | _ => 0
  end.
Lemma dq_series y t : y <> 0 -> 1 / (2 * y) * dq y t = sum_f_R0 (fun n => coefficient n t * (1 / (2 * y)) ^ n) 7.
Proof. intros Hy. unfold dq. cbn [sum_f_R0 coefficient pow]. field. exact Hy. Qed.
Section Orders.
Variable t : R.
Hypothesis Ht : 0 < t < 1.
(** the coefficients of even order by means of the one root *)
Lemma d0_root x : 0 < x < 1 -> d0 x = (1 - x) * (1 - x) / s3 x.
Proof.
  intros Hx. pose proof (s3_pos x Hx) as P. unfold d0. apply (Rmult_eq_reg_r (s3 x)); [|lra]. unfold Rdiv at 2. rewrite Rmult_assoc, Rinv_l, Rmult_1_r by lra.
  unfold s3. rewrite <- sqrt_mult_alt by (apply Rlt_le, Rdiv_lt_0_compat; lra). replace ((1 - x) / x * (x * (1 - x) * (1 - x) * (1 - x))) with (((1 - x) * (1 - x)) * ((1 - x) * (1 - x))) by (field; lra).
  apply sqrt_square. nra.
Qed.
Definition e2 (x : R) : R := - (8 * x - 3) / (32 * x * (1 - x)).
Lemma d2_root x : 0 < x < 1 -> d2 x = e2 x / s3 x.
Proof. intros Hx. pose proof (s3_pos x Hx) as P. unfold d2, e2. rewrite (root_power x Hx 3 5 1 1) by (cbn; ring). field. lra. Qed.
Definition e4 (x : R) : R := - (x * (x * (1536 * x - 704) + 336) - 63) / (2048 * x ^ 2 * (1 - x) ^ 4).
Lemma d4_root x : 0 < x < 1 -> d4 x = e4 x / s3 x.
Proof. intros Hx. pose proof (s3_pos x Hx) as P. unfold d4, e4. rewrite (root_power x Hx 5 11 2 4) by (cbn; ring). field. lra. Qed.
Lemma near : locally t (fun x => 0 < x < 1).
Proof. apply (open_and (fun x => 0 < x) (fun x => x < 1)); [apply open_gt | apply open_lt | exact Ht]. Qed.
Lemma even_derive (d e : R -> R) de : (forall x, 0 < x < 1 -> d x = e x / s3 x) -> is_derive e t de ->
  is_derive (fun x => - d x) t (- ((de - e t * ((1 - 4 * t) / (2 * t * (1 - t)))) / s3 t)).
Proof.
  intros H D. apply (is_derive_opp d). apply (is_derive_ext_loc (fun x => e x / s3 x)).
  - apply (filter_imp (fun x => 0 < x < 1)); [|exact near]. intros x Hx. symmetry. apply H. exact Hx.
  - apply over_s3; assumption.
Qed.
Lemma product_roots a b : a / s3 t * (b / s3 t) = a * b / (t * (1 - t) * (1 - t) * (1 - t)).
Proof. pose proof (s3_pos t Ht) as P. rewrite <- (s3_sq t Ht). field. lra. Qed.
Lemma order0 : hierarchy coefficient 0 t.
Proof. unfold hierarchy, coefficient. rewrite Rmult_opp_opp, (d0_root t Ht), product_roots. field. lra. Qed.
Lemma order1 : hierarchy coefficient 1 t.
Proof.
  pose proof (s3_pos t Ht) as P. unfold hierarchy. change (coefficient 0) with (fun x => - d0 x). evar_last; [eapply even_derive; [exact d0_root|]; auto_derive; [exact I | reflexivity]|].
  cbn [sum_f_R0 coefficient Nat.sub]. rewrite (d0_root t Ht). unfold d1. field. lra.
Qed.
Lemma order2 : hierarchy coefficient 2 t.
Proof.
  pose proof (s3_pos t Ht) as P. unfold hierarchy. change (coefficient 1) with d1. cbn [sum_f_R0 coefficient Nat.sub]. rewrite !Rmult_opp_opp, (d0_root t Ht), (d2_root t Ht), !product_roots.
  unfold d1, e2. auto_derive; [apply Rgt_not_eq; pos | field; lra].
Qed.
Lemma order3 : hierarchy coefficient 3 t.
Proof.
  pose proof (s3_pos t Ht) as P. unfold hierarchy. change (coefficient 2) with (fun x => - d2 x). evar_last; [eapply even_derive; [exact d2_root|]; unfold e2; auto_derive; [apply Rgt_not_eq; pos | reflexivity]|].
  cbn [sum_f_R0 coefficient Nat.sub]. rewrite (d0_root t Ht), (d2_root t Ht). unfold d1, d3, e2. rewrite (power_nat (1 - t) 4) by (cbn; lra). field. lra.
Qed.
Lemma order4 : hierarchy coefficient 4 t.
Proof.
  pose proof (s3_pos t Ht) as P. unfold hierarchy. change (coefficient 3) with d3. cbn [sum_f_R0 coefficient Nat.sub]. rewrite !Rmult_opp_opp, (d0_root t Ht), (d2_root t Ht), (d4_root t Ht), !product_roots.
  apply (is_derive_ext_loc (fun x => 3 * (8 * x * x - 4 * x + 1) / (64 * x * x * (1 - x) ^ 4))).
  { apply (filter_imp (fun x => 0 < x < 1)); [|exact near]. intros x Hx. unfold d3. rewrite (power_nat (1 - x) 4) by (cbn; lra). reflexivity. }
  unfold d1, d3, e2, e4. rewrite (power_nat (1 - t) 4) by (cbn; lra). auto_derive; [apply Rgt_not_eq; pos | field; lra].
Qed.
Lemma order5 : is_derive (coefficient 4) t (coefficient 2 t * coefficient 3 t - sum_f_R0 (fun i => coefficient i t * coefficient (5 - i) t) 5).
Proof.
  pose proof (s3_pos t Ht) as P. change (coefficient 4) with (fun x => - d4 x). evar_last; [eapply even_derive; [exact d4_root|]; unfold e4; auto_derive; [apply Rgt_not_eq; pos; apply pow_lt; lra | reflexivity]|].
  cbn [sum_f_R0 coefficient Nat.sub]. rewrite (d0_root t Ht), (d2_root t Ht), (d4_root t Ht). unfold d1, d3, d5, e2, e4. rewrite (power_nat (1 - t) 4), (power_nat (1 - t) 7) by (cbn; lra). field. lra.
Qed.
End Orders.
(** Orders six and seven at the middle *)
Definition e6 (x : R) : R := (x * (x * (x * (x * (- 368640 * x - 30720) + 114944) - 57792) + 16632) - 2079) / (65536 * x ^ 3 * (1 - x) ^ 7).
Lemma d6_root x : 0 < x < 1 -> d6 x = e6 x / s3 x.
Proof. intros Hx. pose proof (s3_pos x Hx) as P. unfold d6, e6. rewrite (root_power x Hx 7 17 3 7) by (cbn; ring). field. lra. Qed.
Lemma half : 0 < 1 / 2 < 1.
Proof. lra. Qed.
Lemma order6_half : is_derive (coefficient 5) (1 / 2) (4237 / 4 - sum_f_R0 (fun i => coefficient i (1 / 2) * coefficient (6 - i) (1 / 2)) 6).
Proof.
  change (coefficient 5) with d5. cbn [sum_f_R0 coefficient Nat.sub]. rewrite !Rmult_opp_opp, (d0_root _ half), (d2_root _ half), (d4_root _ half), (d6_root _ half), !product_roots by exact half.
  apply (is_derive_ext_loc (fun x => 3 * (x * (x * (x * (2560 * x - 832) + 728) - 260) + 39) / (4096 * x * x * x * (1 - x) ^ 7))).
  { apply (filter_imp (fun x => 0 < x < 1)); [|exact (near _ half)]. intros x Hx. unfold d5. rewrite (power_nat (1 - x) 7) by (cbn; lra). reflexivity. }
  unfold d1, d3, d5, e2, e4, e6. rewrite (power_nat (1 - 1 / 2) 4 4), (power_nat (1 - 1 / 2) 7 7) by (cbn; lra). auto_derive; [apply Rgt_not_eq; pos | field].
Qed.
Lemma order7_half : is_derive (coefficient 6) (1 / 2) (- (20133 / 2) - sum_f_R0 (fun i => coefficient i (1 / 2) * coefficient (7 - i) (1 / 2)) 7).
Proof.
  change (coefficient 6) with (fun x => - d6 x). evar_last; [eapply (even_derive _ half); [exact d6_root|]; unfold e6; auto_derive; [apply Rgt_not_eq; pos; apply pow_lt; lra | reflexivity]|].
  cbn [sum_f_R0 coefficient Nat.sub]. rewrite (d0_root _ half), (d2_root _ half), (d4_root _ half), (d6_root _ half), s3_half. unfold d1, d3, d5, d7, e2, e4, e6.
  rewrite (power_nat (1 - 1 / 2) 4 4), (power_nat (1 - 1 / 2) 7 7), (power_nat (1 - 1 / 2) 10 10), (power_nat (1 / 2) 4 4) by (cbn; lra). field.
Qed.
Theorem riccati_order : exists S : nat -> R -> R,
  (forall y t p0 p1, 0 < y -> 0 < t < 1 -> omGcase1 exact (Fin (2 * y * t)) (Fin y) = (Fin p0, Fin p1) -> p1 = p0 * sum_f_R0 (fun n => S n t * (1 / (2 * y)) ^ n) 7) /\
  (forall n t, (n <= 4)%nat -> 0 < t < 1 -> hierarchy S n t) /\
  (forall t, 0 < t < 1 -> is_derive (S 4%nat) t (S 2%nat t * S 3%nat t - sum_f_R0 (fun i => S i t * S (5 - i)%nat t) 5)) /\
  ~ hierarchy S 5 (1 / 2) /\ ~ hierarchy S 6 (1 / 2) /\ ~ hierarchy S 7 (1 / 2).
Proof.
  exists coefficient. split; [|split; [|split; [|split; [|split]]]].
  - intros y t p0 p1 Hy Ht E. rewrite (case1_lift (2 * y * t) y) in E by nra. rewrite case1_real in E. replace (2 * y * t * (1 / (2 * y))) with t in E by (field; lra).
    destruct (Rltb 100 (qq y t)); unfold lifted in E; injection E as <- <-; [ring|]. rewrite <- dq_series by lra. ring.
  - intros n t Hn Ht. destruct n as [|[|[|[|[|n]]]]]; [apply order0 | apply order1 | apply order2 | apply order3 | apply order4 | lia]; exact Ht.
  - intros t Ht. apply order5. exact Ht.
  - intros H. pose proof (order5 (1 / 2) ltac:(lra)) as D. unfold hierarchy in H. apply is_derive_unique in H, D. rewrite H in D.
    assert (Z : coefficient 2 (1 / 2) * coefficient 3 (1 / 2) = 0) by lra. cbn [coefficient] in Z. rewrite d2_root in Z by lra. unfold e2, d3 in Z. rewrite s3_half, (power_nat _ 4) in Z by (cbn; lra). lra.
  - intros H. pose proof order6_half as D. unfold hierarchy in H. apply is_derive_unique in H, D. lra.
  - intros H. pose proof order7_half as D. unfold hierarchy in H. apply is_derive_unique in H, D. lra.
Qed.
