(** The phase of omGcase4 far away is the Coulomb phase: Stirling's sum at i eta and at 4 + i eta. *)
From Coq Require Import ZArith Reals Lia Lra Psatz.
From Coquelicot Require Import Coquelicot.
From Verif Require Import CoulombWaveModel CoulombExactModel CoulombRealProofs CoulombOscillationProofs TurningNumbers SigmaSpec SigmaProofs.
Open Scope R_scope.

(** * The difference and its derivatives *)
Definition aY (y : R) : R := y / (16 + y ^ 2).
Definition bY (y : R) : R := / (16 + y ^ 2).
Definition series (b : R) : R := 1 / 12 + (b - 64 * b ^ 2) / 360 + (b ^ 2 - 192 * b ^ 3 + 4096 * b ^ 4) / 1260.
Definition series1 (b : R) : R := (1 - 128 * b) / 360 + (2 * b - 576 * b ^ 2 + 16384 * b ^ 3) / 1260.
Definition slope1 (b : R) : R := (- b + 32 * b ^ 2) * series b - 2 * b ^ 2 * (1 - 16 * b) * series1 b.
Definition slope2 (b : R) : R := (-1 + 64 * b) * series b + (- b + 32 * b ^ 2) * series1 b - (4 * b - 96 * b ^ 2) * series1 b - 2 * b ^ 2 * (1 - 16 * b) * (- 128 / 360 + (2 - 1152 * b + 49152 * b ^ 2) / 1260).
Definition gap (y : R) : R := (y * ln y - y / 2 * ln (16 + y ^ 2)) + (PI / 4 - 7 / 2 * atan (y / 4) + atan y + atan (y / 2) + atan (y / 3)) + aY y * series (bY y) + (- (1 / 12) * / y - 1 / 360 * / y ^ 3 - 1 / 1260 * / y ^ 5).
Definition gap1 (y : R) : R := (ln y - / 2 * ln (16 + y ^ 2)) + (2 * bY y + / (1 + y ^ 2) + 2 * / (4 + y ^ 2) + 3 * / (9 + y ^ 2)) + slope1 (bY y) + (1 / 12 * / y ^ 2 + 1 / 120 * / y ^ 4 + 1 / 252 * / y ^ 6).
Definition gap2 (y : R) : R := (/ y - y * bY y) - 4 * y * bY y ^ 2 - 2 * y / (1 + y ^ 2) ^ 2 - 4 * y / (4 + y ^ 2) ^ 2 - 6 * y / (9 + y ^ 2) ^ 2 - 2 * y * bY y ^ 2 * slope2 (bY y) + (- (1 / 6) * / y ^ 3 - 1 / 30 * / y ^ 5 - 1 / 42 * / y ^ 7).
Ltac side := first [exact Logic.I | lra | apply Rgt_not_eq; first [lra | solve [repeat apply Rmult_lt_0_compat; lra] | nra] | nra].
Lemma bY_derive y : is_derive bY y (- 2 * y * bY y ^ 2).
Proof. unfold bY. assert (0 < 16 + y ^ 2) by (pose proof (pow2_ge_0 y); lra). auto_derive; [side | field; side]. Qed.
Lemma along_b (f : R -> R) d y : is_derive f (bY y) d -> is_derive (fun y => f (bY y)) y (- 2 * y * bY y ^ 2 * d).
Proof. intros H. apply (is_derive_comp f bY); [exact H | apply bY_derive]. Qed.
Lemma series_derive b : is_derive series b (series1 b).
Proof. unfold series, series1. auto_derive; [exact Logic.I | field]. Qed.
Lemma slope1_derive b : is_derive slope1 b (slope2 b).
Proof. unfold slope1, slope2, series, series1. auto_derive; [exact Logic.I | field]. Qed.
Lemma y2_b y : y ^ 2 * bY y = 1 - 16 * bY y.
Proof. unfold bY. assert (0 < 16 + y ^ 2) by (pose proof (pow2_ge_0 y); lra). field. lra. Qed.
Lemma as_derive y : is_derive (fun y => aY y * series (bY y)) y (slope1 (bY y)).
Proof.
  assert (A : is_derive aY y (bY y - 2 * y ^ 2 * bY y ^ 2)) by (unfold aY, bY; assert (0 < 16 + y ^ 2) by (pose proof (pow2_ge_0 y); lra); auto_derive; [side | field; side]).
  evar_last; [apply (is_derive_mult aY (fun y => series (bY y))); [exact A | apply along_b, series_derive | intros; apply Rmult_comm]|].
  match goal with |- @eq _ (plus (mult ?a ?b) (mult ?c ?e)) ?g => change (@eq R (a * b + c * e) g) end. unfold slope1. replace (aY y) with (y * bY y) by reflexivity. pose proof (y2_b y) as E.
  replace (bY y - 2 * y ^ 2 * bY y ^ 2) with (bY y - 2 * (y ^ 2 * bY y) * bY y) by ring. replace (y * bY y * (-2 * y * bY y ^ 2 * series1 (bY y))) with (-2 * (y ^ 2 * bY y) * bY y ^ 2 * series1 (bY y)) by ring. rewrite E. ring.
Qed.
Lemma gap_derive y : 0 < y -> is_derive gap y (gap1 y).
Proof.
  intros H. pose proof (pow_lt y 2 H) as Q. unfold gap, gap1.
  apply (is_derive_plus (fun y => (y * ln y - y / 2 * ln (16 + y ^ 2)) + (PI / 4 - 7 / 2 * atan (y / 4) + atan y + atan (y / 2) + atan (y / 3)) + aY y * series (bY y)) (fun y => - (1 / 12) * / y - 1 / 360 * / y ^ 3 - 1 / 1260 * / y ^ 5)).
  - apply (is_derive_plus (fun y => (y * ln y - y / 2 * ln (16 + y ^ 2)) + (PI / 4 - 7 / 2 * atan (y / 4) + atan y + atan (y / 2) + atan (y / 3))) (fun y => aY y * series (bY y))); [|apply as_derive].
    unfold bY. auto_derive; [repeat split; side | change (y * (y * 1)) with (y ^ 2); field; repeat split; side].
  - auto_derive; [repeat split; side | field; repeat split; side].
Qed.
Lemma gap1_derive y : 0 < y -> is_derive gap1 y (gap2 y).
Proof.
  intros H. pose proof (pow_lt y 2 H) as Q. unfold gap1, gap2.
  apply (is_derive_plus (fun y => (ln y - / 2 * ln (16 + y ^ 2)) + (2 * bY y + / (1 + y ^ 2) + 2 * / (4 + y ^ 2) + 3 * / (9 + y ^ 2)) + slope1 (bY y)) (fun y => 1 / 12 * / y ^ 2 + 1 / 120 * / y ^ 4 + 1 / 252 * / y ^ 6)).
  - evar_last; [apply (is_derive_plus (fun y => (ln y - / 2 * ln (16 + y ^ 2)) + (2 * bY y + / (1 + y ^ 2) + 2 * / (4 + y ^ 2) + 3 * / (9 + y ^ 2))) (fun y => slope1 (bY y))); [|apply along_b, slope1_derive]|].
    + evar_last; [unfold bY; auto_derive; [repeat split; side | reflexivity]|].
      instantiate (1 := (/ y - y * bY y) - 4 * y * bY y ^ 2 - 2 * y / (1 + y ^ 2) ^ 2 - 4 * y / (4 + y ^ 2) ^ 2 - 6 * y / (9 + y ^ 2) ^ 2). unfold bY. change (y * (y * 1)) with (y ^ 2). field; repeat split; side.
    + match goal with |- @eq _ (plus ?a ?b) ?g => change (@eq R (a + b) g) end. ring.
  - auto_derive; [repeat split; side | field; repeat split; side].
Qed.

(** * Both vanish far away *)
Lemma small_times f g B : small f -> (forall x, 4 <= x -> Rabs (g x) <= B) -> small (fun x => f x * g x).
Proof.
  intros (C & C0 & H) G. assert (B0 : 0 <= B) by (eapply Rle_trans; [apply Rabs_pos | apply (G 4); lra]). exists (C * B). split; [apply Rmult_le_pos; lra|]. intros x Hx. rewrite Rabs_mult. replace (C * B / x) with (C / x * B) by (unfold Rdiv; ring).
  apply Rmult_le_compat; try apply Rabs_pos; [apply H, Hx | apply G, Hx].
Qed.
Lemma bY_range y : 4 <= y -> 0 < bY y <= / 32.
Proof. intros H. unfold bY. split; [apply Rinv_0_lt_compat; nra | apply Rinv_le_contravar; nra]. Qed.
Lemma small_over k c : 0 <= k -> 0 <= c <= 1 -> small (fun y => c * / (k + y ^ 2)).
Proof.
  intros K Hc. apply small_bound. intros y Hy. assert (Q : 0 < k + y ^ 2) by nra. assert (I : 0 < / (k + y ^ 2)) by (apply Rinv_0_lt_compat; exact Q). rewrite Rabs_pos_eq by (apply Rmult_le_pos; lra).
  apply (Rle_trans _ (/ (k + y ^ 2))); [nra|]. apply Rinv_le_contravar; nra.
Qed.
Lemma small_b : small bY.
Proof. apply (small_ext (fun y => 1 * / (16 + y ^ 2))); [intros; unfold bY; ring | apply small_over; lra]. Qed.
Lemma small_a : small aY.
Proof.
  apply small_bound. intros y Hy. unfold aY. assert (Q : 0 < 16 + y ^ 2) by nra. rewrite Rabs_pos_eq by (apply Rdiv_le_0_compat; lra). apply (Rmult_le_reg_r (16 + y ^ 2)); [exact Q|]. unfold Rdiv. rewrite Rmult_assoc, Rinv_l, Rmult_1_r by lra.
  apply (Rmult_le_reg_l y); [lra|]. rewrite <- Rmult_assoc, Rinv_r by lra. nra.
Qed.
Lemma poly_bound y : 4 <= y -> Rabs (series (bY y)) <= 100 /\ Rabs (series1 (bY y)) <= 100.
Proof.
  intros H. pose proof (bY_range y H) as B. set (b := bY y) in *. assert (M : forall k, 0 <= b ^ k /\ b ^ S k <= / 32 * b ^ k) by (intros k; assert (0 <= b ^ k) by (apply pow_le; lra); cbn [pow]; split; [assumption | apply Rmult_le_compat_r; lra]).
  pose proof (M 1%nat) as M1. pose proof (M 2%nat) as M2. pose proof (M 3%nat) as M3. pose proof (M 4%nat) as M4. rewrite (pow_1 b) in M1. unfold series, series1. split; apply Rabs_le; split; lra.
Qed.
Lemma log_ratio y : 4 <= y -> 0 <= / 2 * ln (16 + y ^ 2) - ln y <= 8 / y ^ 2.
Proof.
  intros H. assert (P : 0 < 16 / y ^ 2) by (apply Rdiv_lt_0_compat; nra). replace (16 + y ^ 2) with (y * y * (1 + 16 / y ^ 2)) by (field; lra). rewrite !ln_mult by nra. destruct (ln_one (16 / y ^ 2)) as [A B]; [lra|]. split; [lra|]. replace (8 / y ^ 2) with (/ 2 * (16 / y ^ 2)) by (field; lra). lra.
Qed.
Lemma gap1_small : small gap1.
Proof.
  unfold gap1. apply (small_plus (fun y => (ln y - / 2 * ln (16 + y ^ 2)) + (2 * bY y + / (1 + y ^ 2) + 2 * / (4 + y ^ 2) + 3 * / (9 + y ^ 2)) + slope1 (bY y)) (fun y => 1 / 12 * / y ^ 2 + 1 / 120 * / y ^ 4 + 1 / 252 * / y ^ 6)).
  - apply (small_plus (fun y => (ln y - / 2 * ln (16 + y ^ 2)) + (2 * bY y + / (1 + y ^ 2) + 2 * / (4 + y ^ 2) + 3 * / (9 + y ^ 2))) (fun y => slope1 (bY y))).
    + apply (small_plus (fun y => ln y - / 2 * ln (16 + y ^ 2)) (fun y => 2 * bY y + / (1 + y ^ 2) + 2 * / (4 + y ^ 2) + 3 * / (9 + y ^ 2))).
      * exists 8. split; [lra|]. intros y Hy. pose proof (log_ratio y Hy) as L. rewrite Rabs_minus_sym, Rabs_pos_eq by lra. apply (Rle_trans _ (8 / y ^ 2)); [lra|]. apply Rmult_le_compat_l; [lra|]. apply Rinv_le_contravar; nra.
      * apply (small_plus (fun y => 2 * bY y + / (1 + y ^ 2) + 2 * / (4 + y ^ 2)) (fun y => 3 * / (9 + y ^ 2))); [apply (small_plus (fun y => 2 * bY y + / (1 + y ^ 2)) (fun y => 2 * / (4 + y ^ 2))); [apply (small_plus (fun y => 2 * bY y) (fun y => / (1 + y ^ 2)))|]|].
        -- apply small_scal, small_b.
        -- apply (small_ext (fun y => 1 * / (1 + y ^ 2))); [intros; ring | apply small_over; lra].
        -- apply (small_scal 2 (fun y => / (4 + y ^ 2))). apply (small_ext (fun y => 1 * / (4 + y ^ 2))); [intros; ring | apply small_over; lra].
        -- apply (small_scal 3 (fun y => / (9 + y ^ 2))). apply (small_ext (fun y => 1 * / (9 + y ^ 2))); [intros; ring | apply small_over; lra].
    + apply (small_ext (fun y => bY y * ((-1 + 32 * bY y) * series (bY y) - 2 * bY y * (1 - 16 * bY y) * series1 (bY y)))); [intros; unfold slope1; ring|]. apply (small_times bY _ 1000 small_b).
      intros y Hy. pose proof (bY_range y Hy) as B. destruct (poly_bound y Hy) as [S S1]. apply Rabs_le_between in S. apply Rabs_le_between in S1. set (b := bY y) in *. set (s := series b) in *. set (s1 := series1 b) in *. apply Rabs_le.
      assert (X : -1 <= -1 + 32 * b <= 0) by lra. assert (W : 0 <= 2 * b * (1 - 16 * b) <= 1) by nra. set (q := -1 + 32 * b) in *. set (p := 2 * b * (1 - 16 * b)) in *. split; nra.
  - apply (small_plus (fun y => 1 / 12 * / y ^ 2 + 1 / 120 * / y ^ 4) (fun y => 1 / 252 * / y ^ 6)); [apply (small_plus (fun y => 1 / 12 * / y ^ 2) (fun y => 1 / 120 * / y ^ 4))|]; apply small_scal, small_inv_pow.
Qed.
Lemma atans y : 0 < y -> PI / 4 - 7 / 2 * atan (y / 4) + atan y + atan (y / 2) + atan (y / 3) = 7 / 2 * atan (4 / y) - atan (1 / y) - atan (2 / y) - atan (3 / y).
Proof.
  intros H. assert (A : forall c, 0 < c -> atan (c / y) = PI / 2 - atan (y / c)) by (intros c Hc; replace (c / y) with (/ (y / c)) by (field; lra); apply atan_inv; apply Rdiv_lt_0_compat; lra).
  rewrite (A 4), (A 1), (A 2), (A 3) by lra. replace (y / 1) with y by field. lra.
Qed.
Lemma gap_small : small gap.
Proof.
  unfold gap. apply (small_plus (fun y => (y * ln y - y / 2 * ln (16 + y ^ 2)) + (PI / 4 - 7 / 2 * atan (y / 4) + atan y + atan (y / 2) + atan (y / 3)) + aY y * series (bY y)) (fun y => - (1 / 12) * / y - 1 / 360 * / y ^ 3 - 1 / 1260 * / y ^ 5)).
  - apply (small_plus (fun y => (y * ln y - y / 2 * ln (16 + y ^ 2)) + (PI / 4 - 7 / 2 * atan (y / 4) + atan y + atan (y / 2) + atan (y / 3))) (fun y => aY y * series (bY y))).
    + apply (small_plus (fun y => y * ln y - y / 2 * ln (16 + y ^ 2)) (fun y => PI / 4 - 7 / 2 * atan (y / 4) + atan y + atan (y / 2) + atan (y / 3))).
      * exists 8. split; [lra|]. intros y Hy. pose proof (log_ratio y Hy) as L. replace (y * ln y - y / 2 * ln (16 + y ^ 2)) with (- (y * (/ 2 * ln (16 + y ^ 2) - ln y))) by field. rewrite Rabs_Ropp, Rabs_pos_eq by (apply Rmult_le_pos; lra).
        replace (8 / y) with (y * (8 / y ^ 2)) by (field; lra). apply Rmult_le_compat_l; lra.
      * apply (small_ext (fun y => 7 / 2 * atan (4 / y) - atan (1 / y) - atan (2 / y) - atan (3 / y))); [intros y Hy; symmetry; apply atans; lra|].
        apply (small_minus (fun y => 7 / 2 * atan (4 / y) - atan (1 / y) - atan (2 / y)) (fun y => atan (3 / y))); [|apply small_atan]. apply (small_minus (fun y => 7 / 2 * atan (4 / y) - atan (1 / y)) (fun y => atan (2 / y))); [|apply small_atan].
        apply (small_minus (fun y => 7 / 2 * atan (4 / y)) (fun y => atan (1 / y))); [|apply small_atan]. apply small_scal, small_atan.
    + apply (small_times aY _ 100 small_a). intros y Hy. apply poly_bound, Hy.
  - apply (small_minus (fun y => - (1 / 12) * / y - 1 / 360 * / y ^ 3) (fun y => 1 / 1260 * / y ^ 5)); [apply (small_minus (fun y => - (1 / 12) * / y) (fun y => 1 / 360 * / y ^ 3))|]; try (apply small_scal, small_inv_pow).
    apply (small_scal (- (1 / 12)) (fun y => / y)). apply (small_ext (fun y => / y ^ 1)); [intros; rewrite pow_1; reflexivity | apply small_inv_pow].
Qed.

(** * The second derivative *)
Definition numerator (u : R) : R := (-57982058496 / 7) + (-188844343296 / 5) * u ^ 1 + (-380867969024 / 3) * u ^ 2 + (10367476957184 / 105) * u ^ 3 + (-312803328) * u ^ 4 + (6375329792 / 15) * u ^ 5 + (2469196288 / 21) * u ^ 6 + (9800064 / 5) * u ^ 7 + (375520) * u ^ 8 + (110744 / 5) * u ^ 9 + (-784) * u ^ 10 + (24) * u ^ 11.
Lemma gap2_is y : 0 < y -> gap2 y = numerator (y ^ 2) / (y ^ 7 * (16 + y ^ 2) ^ 7 * (1 + y ^ 2) ^ 2 * (4 + y ^ 2) ^ 2 * (9 + y ^ 2) ^ 2).
Proof.
  intros H. pose proof (pow_lt y 2 H) as Q. unfold gap2, numerator, bY, slope2, series, series1. field. repeat split; side.
Qed.
Ltac terms := repeat apply Rplus_le_le_0_compat; try (apply Rmult_le_pos; [lra | apply pow_le; assumption]); try lra.
Lemma numerator_pos u : 16 <= u -> 0 <= numerator u.
Proof.
  intros H. assert (T : 0 <= u - 16) by lra. replace (numerator u) with ((125798303609651200 / 21) + (54387994966097920 / 21) * (u - 16) ^ 1 + (1529742947778560 / 3) * (u - 16) ^ 2 + (1266574703460352 / 21) * (u - 16) ^ 3 + (501796287545344 / 105) * (u - 16) ^ 4 + (28364731707392 / 105) * (u - 16) ^ 5 + (1206050783744 / 105) * (u - 16) ^ 6 + (1939216768 / 5) * (u - 16) ^ 7 + (53767136 / 5) * (u - 16) ^ 8 + (1173144 / 5) * (u - 16) ^ 9 + (3440) * (u - 16) ^ 10 + (24) * (u - 16) ^ 11) by (unfold numerator; field). generalize dependent (u - 16). intros t T. terms.
Qed.
Lemma numerator_le u : 16 <= u -> numerator u <= 12 / 50000 * (u * (16 + u) ^ 7 * (1 + u) ^ 2 * (4 + u) ^ 2 * (9 + u) ^ 2).
Proof.
  intros H. assert (T : 0 <= u - 16) by lra. apply Rminus_le. rewrite <- Ropp_minus_distr. apply Rge_le, Ropp_0_le_ge_contravar.
  replace (12 / 50000 * (u * (16 + u) ^ 7 * (1 + u) ^ 2 * (4 + u) ^ 2 * (9 + u) ^ 2) - numerator u) with ((74389778459525120 / 21) + (307501484776357888 / 105) * (u - 16) ^ 1 + (361550046782554112 / 375) * (u - 16) ^ 2 + (2369097190887391232 / 13125) * (u - 16) ^ 3 + (1450674351029878784 / 65625) * (u - 16) ^ 4 + (124668554525151232 / 65625) * (u - 16) ^ 5 + (7815547326191104 / 65625) * (u - 16) ^ 6 + (17391031252928 / 3125) * (u - 16) ^ 7 + (612076345516 / 3125) * (u - 16) ^ 8 + (16248038346 / 3125) * (u - 16) ^ 9 + (1289656499 / 12500) * (u - 16) ^ 10 + (4654107 / 3125) * (u - 16) ^ 11 + (91833 / 6250) * (u - 16) ^ 12 + (273 / 3125) * (u - 16) ^ 13 + (3 / 12500) * (u - 16) ^ 14) by (unfold numerator; field). generalize dependent (u - 16). intros t T. terms.
Qed.
Lemma gap2_range y : 4 <= y -> 0 <= gap2 y <= 12 / 50000 * / y ^ 5.
Proof.
  intros H. assert (Q : 16 <= y ^ 2) by nra. rewrite gap2_is by lra. pose proof (numerator_pos (y ^ 2) Q) as N. pose proof (numerator_le (y ^ 2) Q) as L.
  set (D := (16 + y ^ 2) ^ 7 * (1 + y ^ 2) ^ 2 * (4 + y ^ 2) ^ 2 * (9 + y ^ 2) ^ 2). assert (D0 : 0 < D) by (unfold D; apply Rmult_lt_0_compat; [apply Rmult_lt_0_compat; [apply Rmult_lt_0_compat|]|]; apply pow_lt; lra).
  assert (Y7 : 0 < y ^ 7) by (apply pow_lt; lra).
  replace (y ^ 7 * (16 + y ^ 2) ^ 7 * (1 + y ^ 2) ^ 2 * (4 + y ^ 2) ^ 2 * (9 + y ^ 2) ^ 2) with (y ^ 7 * D) by (unfold D; ring). replace (y ^ 2 * (16 + y ^ 2) ^ 7 * (1 + y ^ 2) ^ 2 * (4 + y ^ 2) ^ 2 * (9 + y ^ 2) ^ 2) with (y ^ 2 * D) in L by (unfold D; ring). clearbody D.
  assert (YD : 0 < y ^ 7 * D) by (apply Rmult_lt_0_compat; assumption). split; [apply Rdiv_le_0_compat; assumption|].
  apply (Rmult_le_reg_r (y ^ 7 * D)); [exact YD|]. unfold Rdiv at 1. rewrite Rmult_assoc, Rinv_l, Rmult_1_r by lra. eapply Rle_trans; [exact L|]. right. field. lra.
Qed.
Theorem gap_range y : 4 <= y -> 0 <= gap y <= 1 / 50000 * / y ^ 3.
Proof.
  intros H. split.
  - revert y H. apply (convex_nonneg gap gap1 gap2); [intros; apply gap_derive; lra | intros; apply gap1_derive; lra | intros; apply gap2_range; assumption | exact gap_small | exact gap1_small].
  - cut (0 <= 1 / 50000 * / y ^ 3 - gap y); [lra|]. revert y H.
    apply (convex_nonneg (fun y => 1 / 50000 * / y ^ 3 - gap y) (fun y => - 3 / 50000 * / y ^ 4 - gap1 y) (fun y => 12 / 50000 * / y ^ 5 - gap2 y)).
    + intros y H. apply (is_derive_minus (fun y => 1 / 50000 * / y ^ 3) gap); [auto_derive; [apply Rgt_not_eq; repeat apply Rmult_lt_0_compat; lra | field; lra] | apply gap_derive; lra].
    + intros y H. apply (is_derive_minus (fun y => - 3 / 50000 * / y ^ 4) gap1); [auto_derive; [apply Rgt_not_eq; repeat apply Rmult_lt_0_compat; lra | field; lra] | apply gap1_derive; lra].
    + intros y H. pose proof (gap2_range y H). lra.
    + apply (small_minus (fun y => 1 / 50000 * / y ^ 3) gap); [apply small_scal, small_inv_pow | exact gap_small].
    + apply (small_minus (fun y => - 3 / 50000 * / y ^ 4) gap1); [apply small_scal, small_inv_pow | exact gap1_small].
Qed.

(** * The phase of omGcase4 far away *)
Definition s_far (y : R) : R := y * ln y - y + @PI_4 real - 1 / 12 * / y - 1 / 360 * / y ^ 3 - 1 / 1260 * / y ^ 5.
Lemma s_far_gap y : 0 < y -> s_far y = partial y 0 + gap y + (@PI_4 real - PI / 4).
Proof.
  intros H. pose proof (pow_lt y 2 H) as Q. unfold s_far, partial, stirling. cbn [Nat.add]. replace (INR 0 + 4) with 4 by (cbn [INR]; ring).
  assert (E : sum_f_R0 (fun k => atan (y / INR (S k))) 2 = atan y + atan (y / 2) + atan (y / 3)) by (cbn [sum_f_R0 INR]; replace (y / 1) with y by field; replace (1 + 1) with 2 by ring; replace (2 + 1) with 3 by ring; reflexivity). rewrite E. clear E.
  replace (4 ^ 2 + y ^ 2) with (16 + y ^ 2) by ring. unfold gap. generalize (@PI_4 real) (ln y) (ln (16 + y ^ 2)) (atan (y / 4)) (atan y) (atan (y / 2)) (atan (y / 3)). intros.
  unfold aY, bY, series, im. cbn. field. repeat split; side.
Qed.
Theorem s_far_close y sigma : 4 <= y -> coulomb_phase y sigma -> Rabs (s_far y - sigma) <= / 1512 * / 4 ^ 7 + 1 / 50000 * / y ^ 3 + / 10 ^ 12.
Proof.
  intros H Hs. destruct (phase_exists y) as (sigma' & H' & B). assert (E : sigma' = sigma) by (apply is_lim_seq_unique in H'; apply is_lim_seq_unique in Hs; unfold coulomb_phase in *; rewrite H' in Hs; injection Hs; auto). rewrite E in B. clear E H'.
  rewrite s_far_gap by lra. pose proof (gap_range y H) as G. destruct pi_bounds as [P1 P2]. assert (Q : Rabs (@PI_4 real - PI / 4) <= / 10 ^ 12) by (cbv [CoulombWaveModel.PI_4 real dec real_dec]; apply Rabs_le; lra).
  apply Rabs_le_between in B. apply Rabs_le_between in Q. apply Rabs_le. set (p := partial y 0) in *. set (q := @PI_4 real) in *. clearbody p q. split; lra.
Qed.
