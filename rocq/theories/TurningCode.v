(** The numbers of omGcase2 against the expansion at the turning point. *)
From Coq Require Import Reals QArith Qreals List Lra Lia ZArith.
From Coquelicot Require Import Coquelicot.
From Verif Require Import Outcome CoulombWaveModel CoulombExactModel CoulombExactProofs CoulombRealProofs CoulombMeshProofs.
From Verif Require Import TurningSpec TurningProofs TurningSeries TurningExpansion GammaThirds TurningNumbers.
Import ListNotations.
Open Scope R_scope.

(** * The coefficients of the code *)
Definition cs (k : nat) : R := 1223404016 / 1000000000 *
  nth k [1; 0; 4959570165 / 100000000000; - (8888888889 / 1000000000000); 0; 2455199181 / 1000000000000; - (9108958061 / 10000000000000); 0; 2534684115 / 10000000000000] 0.
Definition ds (k : nat) : R := - (7078817734 / 10000000000) *
  nth k [1; - (1728260369 / 10000000000); 0; 3174603174 / 10000000000000; - (3581214850 / 1000000000000); 0; 3117824680 / 10000000000000; - (9073966427 / 10000000000000); 0] 0.
Lemma powers_of y a b c : b = a + c -> Rpower y b = Rpower y a * Rpower y c.
Proof. intros ->. apply Rpower_plus. Qed.
Lemma code_form y : 0 < y ->
  omGcase2 exact (Fin y) = (Fin (sum_f_R0 (fun k => cs k * Rpower y (1 / 6 - 2 * INR k / 3)) 8), Fin (sum_f_R0 (fun k => ds k * Rpower y (- (1 / 6) - 2 * INR k / 3)) 8)).
Proof.
  intros Hy. rewrite (case2_lift y Hy). unfold lifted, at_turning, omGcase2. cbn [fst snd]. cbn [CoulombRealProofs.real num dec add sub mul div fpow]. unfold real_dec.
  change (10 ^ 9)%Z with 1000000000%Z. change (10 ^ 10)%Z with 10000000000%Z. change (10 ^ 11)%Z with 100000000000%Z. change (10 ^ 12)%Z with 1000000000000%Z. change (10 ^ 13)%Z with 10000000000000%Z.
  unfold cs, ds. cbn [sum_f_R0 nth INR].
  f_equal; f_equal.
  - rewrite (powers_of y (1 / 6) (1 / 6 - 2 * (1 + 1) / 3) (-4 / 3)) by lra. rewrite (powers_of y (1 / 6) (1 / 6 - 2 * (1 + 1 + 1) / 3) (-2)) by lra.
    rewrite (powers_of y (1 / 6) (1 / 6 - 2 * (1 + 1 + 1 + 1 + 1) / 3) (-10 / 3)) by lra. rewrite (powers_of y (1 / 6) (1 / 6 - 2 * (1 + 1 + 1 + 1 + 1 + 1) / 3) (-4)) by lra.
    rewrite (powers_of y (1 / 6) (1 / 6 - 2 * (1 + 1 + 1 + 1 + 1 + 1 + 1 + 1) / 3) (-16 / 3)) by lra. replace (1 / 6 - 2 * 0 / 3) with (1 / 6) by lra. field.
  - rewrite (powers_of y (-1 / 6) (- (1 / 6) - 2 * 1 / 3) (-2 / 3)) by lra. rewrite (powers_of y (-1 / 6) (- (1 / 6) - 2 * (1 + 1 + 1) / 3) (-2)) by lra.
    rewrite (powers_of y (-1 / 6) (- (1 / 6) - 2 * (1 + 1 + 1 + 1) / 3) (-8 / 3)) by lra. rewrite (powers_of y (-1 / 6) (- (1 / 6) - 2 * (1 + 1 + 1 + 1 + 1 + 1) / 3) (-4)) by lra.
    rewrite (powers_of y (-1 / 6) (- (1 / 6) - 2 * (1 + 1 + 1 + 1 + 1 + 1 + 1) / 3) (-14 / 3)) by lra. replace (- (1 / 6) - 2 * 0 / 3) with (-1 / 6) by lra. field.
Qed.

(** * The coefficients of the expansion *)
Section Constants.
Variables g13 g23 : R.
Hypotheses (H13 : is_Gamma (1 / 3) g13) (H23 : is_Gamma (2 / 3) g23).
Lemma g13_pos : 0 < g13.
Proof. destruct (gamma_13 g13 H13) as [L _]. apply Rnot_le_lt. intros C. assert (g13 ^ 3 <= 0); [|lra]. cbn [pow]. rewrite Rmult_1_r. assert (0 <= g13 * g13) by nra. nra. Qed.
Lemma g23_pos : 0 < g23.
Proof. destruct (gamma_23 g23 H23) as [L _]. apply Rnot_le_lt. intros C. assert (g23 ^ 3 <= 0); [|lra]. cbn [pow]. rewrite Rmult_1_r. assert (0 <= g23 * g23) by nra. nra. Qed.
(** Bi' (0) / (2^(1/3) Bi (0)) *)
Definition ratio : R := Rpower 2 (- (1 / 3)) * (Bi'_0 g13 / Bi_0 g23).
Lemma ratio_pos : 0 < ratio.
Proof.
  unfold ratio, Bi'_0, Bi_0. pose proof g13_pos. pose proof g23_pos. pose proof (exp_pos (- (1 / 3) * ln 2)). change (exp (- (1 / 3) * ln 2)) with (Rpower 2 (- (1 / 3))) in *.
  pose proof (exp_pos (1 / 6 * ln 3)). change (exp (1 / 6 * ln 3)) with (Rpower 3 (1 / 6)) in *. apply Rmult_lt_0_compat; [assumption|]. apply Rdiv_lt_0_compat; apply Rdiv_lt_0_compat; try lra; apply Rmult_lt_0_compat; assumption.
Qed.
Lemma Rpower_nat a b n : 0 < a -> Rpower a b ^ n = Rpower a (b * INR n).
Proof. intros Ha. rewrite <- Rpower_pow by apply exp_pos. apply Rpower_mult. Qed.
Lemma ratio_cube : ratio ^ 3 = 3 / 2 * g23 ^ 3 / g13 ^ 3.
Proof.
  pose proof g13_pos. pose proof g23_pos. pose proof (exp_pos (1 / 6 * ln 3)) as P3. change (exp (1 / 6 * ln 3)) with (Rpower 3 (1 / 6)) in P3. unfold ratio, Bi'_0, Bi_0.
  replace ((Rpower 2 (- (1 / 3)) * (Rpower 3 (1 / 6) / g13 / (1 / (Rpower 3 (1 / 6) * g23)))) ^ 3) with (Rpower 2 (- (1 / 3)) ^ 3 * Rpower 3 (1 / 6) ^ 6 * g23 ^ 3 / g13 ^ 3) by (field; lra).
  rewrite !Rpower_nat by lra. replace (- (1 / 3) * INR 3) with (- (1)) by (cbn [INR]; lra). replace (1 / 6 * INR 6) with 1 by (cbn [INR]; lra). rewrite Rpower_Ropp, !Rpower_1 by lra. field. lra.
Qed.
Lemma ratio_bounds : 5786165196683 / 10000000000000 <= ratio <= 5786165196687 / 10000000000000.
Proof.
  apply (pow_between _ _ _ 2); [apply ratio_pos | lra | lra |]. rewrite ratio_cube. pose proof (gamma_13 g13 H13) as [L1 U1]. pose proof (gamma_23 g23 H23) as [L2 U2].
  assert (P : 0 < g13 ^ 3) by lra. split.
  - apply (Rmult_le_reg_r (g13 ^ 3)); [exact P|]. replace (3 / 2 * g23 ^ 3 / g13 ^ 3 * g13 ^ 3) with (3 / 2 * g23 ^ 3) by (field; pose proof g13_pos; lra).
    apply Rle_trans with ((5786165196683 / 10000000000000) ^ 3 * (19225969452598 / 1000000000000)); [apply Rmult_le_compat_l; [apply pow_le; lra | exact U1]|]. cbn [pow]. lra.
  - apply (Rmult_le_reg_r (g13 ^ 3)); [exact P|]. replace (3 / 2 * g23 ^ 3 / g13 ^ 3 * g13 ^ 3) with (3 / 2 * g23 ^ 3) by (field; pose proof g13_pos; lra).
    apply Rle_trans with ((5786165196687 / 10000000000000) ^ 3 * (19225969452593 / 1000000000000)); [|apply Rmult_le_compat_l; [apply pow_le; lra | exact L1]]. cbn [pow]. lra.
Qed.

Lemma sqrt_PI_pos : 0 < sqrt PI.
Proof. apply sqrt_lt_R0, PI_RGT_0. Qed.
Lemma sqrt_PI_6 : sqrt PI ^ 6 = PI ^ 3.
Proof. replace (sqrt PI ^ 6) with ((sqrt PI * sqrt PI) ^ 3) by ring. rewrite sqrt_sqrt by (pose proof PI_RGT_0; lra). reflexivity. Qed.
Definition start : R := sqrt PI * Rpower 2 (1 / 6) * Bi_0 g23.
Definition start' : R := sqrt PI * Rpower 2 (- (1 / 6)) * Bi'_0 g13.
Lemma PI_cube : 310062766802 / 10000000000 <= PI ^ 3 <= 310062766804 / 10000000000.
Proof.
  destruct pi_bounds as [L U]. split.
  - apply Rle_trans with ((31415926535897 / 10000000000000) ^ 3); [cbn [pow]; lra | apply pow_incr; lra].
  - apply Rle_trans with ((31415926535898 / 10000000000000) ^ 3); [apply pow_incr; lra | cbn [pow]; lra].
Qed.
Lemma start_bounds : 12234040151 / 10000000000 <= start <= 12234040152 / 10000000000.
Proof.
  pose proof g23_pos as P. pose proof (exp_pos (1 / 6 * ln 3)) as P3. change (exp (1 / 6 * ln 3)) with (Rpower 3 (1 / 6)) in P3. pose proof (exp_pos (1 / 6 * ln 2)) as P2. change (exp (1 / 6 * ln 2)) with (Rpower 2 (1 / 6)) in P2.
  pose proof sqrt_PI_pos as Pp.
  assert (E : start ^ 6 = PI ^ 3 * 2 / 3 / (g23 ^ 3) ^ 2).
  { unfold start, Bi_0. replace ((sqrt PI * Rpower 2 (1 / 6) * (1 / (Rpower 3 (1 / 6) * g23))) ^ 6) with (sqrt PI ^ 6 * Rpower 2 (1 / 6) ^ 6 / Rpower 3 (1 / 6) ^ 6 / (g23 ^ 3) ^ 2) by (field; lra).
    rewrite sqrt_PI_6, !Rpower_nat by lra. replace (1 / 6 * INR 6) with 1 by (cbn [INR]; lra). rewrite !Rpower_1 by lra. reflexivity. }
  apply (pow_between _ _ _ 5); [unfold start, Bi_0; apply Rmult_lt_0_compat; [apply Rmult_lt_0_compat; assumption | apply Rdiv_lt_0_compat; [lra | apply Rmult_lt_0_compat; assumption]] | lra | lra |]. rewrite E.
  destruct PI_cube as [Lp Up]. destruct (gamma_23 g23 H23) as [L U]. assert (Q : 0 < (g23 ^ 3) ^ 2) by (apply pow_lt; lra). set (z := g23 ^ 3) in *. split.
  - apply (Rmult_le_reg_r (z ^ 2)); [exact Q|]. replace (PI ^ 3 * 2 / 3 / z ^ 2 * z ^ 2) with (PI ^ 3 * 2 / 3) by (field; lra).
    apply Rle_trans with ((12234040151 / 10000000000) ^ 6 * (24829585812155 / 10000000000000) ^ 2); [apply Rmult_le_compat_l; [apply pow_le; lra | apply pow_incr; lra]|]. cbn [pow]. cbn [pow] in Lp. lra.
  - apply (Rmult_le_reg_r (z ^ 2)); [exact Q|]. replace (PI ^ 3 * 2 / 3 / z ^ 2 * z ^ 2) with (PI ^ 3 * 2 / 3) by (field; lra).
    apply Rle_trans with ((12234040152 / 10000000000) ^ 6 * (2482958581215 / 1000000000000) ^ 2); [|apply Rmult_le_compat_l; [apply pow_le; lra | apply pow_incr; lra]]. cbn [pow]. cbn [pow] in Up. lra.
Qed.
Lemma start'_bounds : 70788177337 / 100000000000 <= start' <= 70788177338 / 100000000000.
Proof.
  pose proof g13_pos as P. pose proof (exp_pos (1 / 6 * ln 3)) as P3. change (exp (1 / 6 * ln 3)) with (Rpower 3 (1 / 6)) in P3. pose proof (exp_pos (- (1 / 6) * ln 2)) as P2. change (exp (- (1 / 6) * ln 2)) with (Rpower 2 (- (1 / 6))) in P2.
  pose proof sqrt_PI_pos as Pp.
  assert (E : start' ^ 6 = PI ^ 3 * 3 / 2 / (g13 ^ 3) ^ 2).
  { unfold start', Bi'_0. replace ((sqrt PI * Rpower 2 (- (1 / 6)) * (Rpower 3 (1 / 6) / g13)) ^ 6) with (sqrt PI ^ 6 * Rpower 2 (- (1 / 6)) ^ 6 * Rpower 3 (1 / 6) ^ 6 / (g13 ^ 3) ^ 2) by (field; lra).
    rewrite sqrt_PI_6, !Rpower_nat by lra. replace (1 / 6 * INR 6) with 1 by (cbn [INR]; lra). replace (- (1 / 6) * INR 6) with (- (1)) by (cbn [INR]; lra). rewrite Rpower_Ropp, !Rpower_1 by lra. field. lra. }
  apply (pow_between _ _ _ 5); [unfold start', Bi'_0; apply Rmult_lt_0_compat; [apply Rmult_lt_0_compat; assumption | apply Rdiv_lt_0_compat; assumption] | lra | lra |]. rewrite E.
  destruct PI_cube as [Lp Up]. destruct (gamma_13 g13 H13) as [L U]. assert (Q : 0 < (g13 ^ 3) ^ 2) by (apply pow_lt; lra). set (z := g13 ^ 3) in *. split.
  - apply (Rmult_le_reg_r (z ^ 2)); [exact Q|]. replace (PI ^ 3 * 3 / 2 / z ^ 2 * z ^ 2) with (PI ^ 3 * 3 / 2) by (field; lra).
    apply Rle_trans with ((70788177337 / 100000000000) ^ 6 * (19225969452598 / 1000000000000) ^ 2); [apply Rmult_le_compat_l; [apply pow_le; lra | apply pow_incr; lra]|]. cbn [pow]. cbn [pow] in Lp. lra.
  - apply (Rmult_le_reg_r (z ^ 2)); [exact Q|]. replace (PI ^ 3 * 3 / 2 / z ^ 2 * z ^ 2) with (PI ^ 3 * 3 / 2) by (field; lra).
    apply Rle_trans with ((70788177338 / 100000000000) ^ 6 * (19225969452593 / 1000000000000) ^ 2); [|apply Rmult_le_compat_l; [apply pow_le; lra | apply pow_incr; lra]]. cbn [pow]. cbn [pow] in Up. lra.
Qed.
End Constants.

(** * Order by order *)
Section Orders.
Variables (p q : nat -> R -> R) (g13 g23 : R).
Hypotheses (T : turning_expansion 8 p q) (H13 : is_Gamma (1 / 3) g13) (H23 : is_Gamma (2 / 3) g23).
Let s := ratio g13 g23.
Lemma values k : (k <= 8)%nat -> p k 0 = Q2R (P0 k) /\ q k 0 = Q2R (Q0 k) /\ Derive (p k) 0 = Q2R (P1 k) /\ Derive (q k) 0 = Q2R (Q1 k).
Proof.
  intros Hk. assert (E : forall x, p k x = pk k x /\ q k x = qk k x) by (intros x; apply (unique 8 _ _ _ _ T expansion_exists); exact Hk).
  rewrite (Derive_ext (p k) (pk k)) by (intros x; apply E). rewrite (Derive_ext (q k) (qk k)) by (intros x; apply E). destruct (E 0) as [-> ->]. rewrite pk_0, qk_0, pk_1, qk_1. repeat split; reflexivity.
Qed.
Lemma powers k : Rpower 2 (1 / 6 - 2 * INR k / 3) = Rpower 2 (1 / 6) * Rpower 2 (- (1 / 3)) ^ (2 * k) /\ Rpower 2 (- (1 / 6) - 2 * INR k / 3) = Rpower 2 (- (1 / 6)) * Rpower 2 (- (1 / 3)) ^ (2 * k).
Proof.
  rewrite Rpower_nat by lra. rewrite <- !Rpower_plus, mult_INR. replace (INR 2) with 2 by (cbn [INR]; lra). split; f_equal; lra.
Qed.
Let r := Rpower 2 (- (1 / 3)).
Lemma r_cube : r ^ 3 = 1 / 2.
Proof. unfold r. rewrite Rpower_nat by lra. replace (- (1 / 3) * INR 3) with (- (1)) by (cbn [INR]; lra). rewrite Rpower_Ropp, Rpower_1 by lra. lra. Qed.
Lemma r_pos : 0 < r.
Proof. apply exp_pos. Qed.
Lemma G_zero : G_coefficient p q g13 g23 0 = start g23.
Proof.
  unfold G_coefficient, start. destruct (te_first _ _ _ T 0) as [-> ->]. replace (1 / 6 - 2 * INR 0 / 3) with (1 / 6) by (cbn [INR]; lra). ring.
Qed.
Lemma G'_zero : G'_coefficient p q g13 g23 0 = - start' g13.
Proof.
  unfold G'_coefficient, start'. destruct (values 0 ltac:(lia)) as (-> & _ & -> & ->). change (P0 0) with 1%Q. change (P1 0) with 0%Q. change (Q1 0) with 0%Q.
  replace (Q2R 1) with 1 by (unfold Q2R; cbn; field). rewrite Q2R_0. replace (- (1 / 6) - 2 * INR 0 / 3) with (- (1 / 6)) by (cbn [INR]; lra). ring.
Qed.
Lemma constants_pos : 0 < Bi_0 g23 /\ 0 < Bi'_0 g13 /\ 0 < sqrt PI /\ 0 < Rpower 2 (1 / 6) /\ 0 < Rpower 2 (- (1 / 6)).
Proof.
  pose proof (g13_pos g13 H13). pose proof (g23_pos g23 H23). unfold Bi_0, Bi'_0. split; [|split; [|split; [apply sqrt_PI_pos | split; apply exp_pos]]].
  - apply Rdiv_lt_0_compat; [lra|]. apply Rmult_lt_0_compat; [apply exp_pos | assumption].
  - apply Rdiv_lt_0_compat; [apply exp_pos | assumption].
Qed.
Lemma G_order k : (k <= 8)%nat -> G_coefficient p q g13 g23 k / G_coefficient p q g13 g23 0 = r ^ (2 * k) * Q2R (P0 k) - r ^ (2 * k) / r * Q2R (Q0 k) * s.
Proof.
  intros Hk. rewrite G_zero. unfold G_coefficient. destruct (values k Hk) as (-> & -> & _ & _). destruct (powers k) as [-> _]. fold r. pose proof constants_pos as (A & B & C & D & _). pose proof r_pos.
  unfold start, s, ratio. fold r. set (rk := r ^ (2 * k)). field. lra.
Qed.
Lemma G'_order k : (k <= 8)%nat -> G'_coefficient p q g13 g23 k / G'_coefficient p q g13 g23 0 = r ^ (2 * k) * (Q2R (P0 k) + Q2R (Q1 k)) - r ^ (2 * k) * r * Q2R (P1 k) / s.
Proof.
  intros Hk. rewrite G'_zero. unfold G'_coefficient. destruct (values k Hk) as (-> & _ & -> & ->). destruct (powers k) as [_ ->]. fold r. pose proof constants_pos as (A & B & C & _ & D). pose proof r_pos.
  unfold start', s, ratio. fold r. set (rk := r ^ (2 * k)). field. lra.
Qed.
Lemma s_bounds : 5786165196683 / 10000000000000 <= s <= 5786165196687 / 10000000000000.
Proof. apply ratio_bounds; assumption. Qed.
Lemma inverse_bounds : 10000000000000 / 5786165196687 <= / s <= 10000000000000 / 5786165196683.
Proof.
  pose proof s_bounds as [L U]. split.
  - replace (10000000000000 / 5786165196687) with (/ (5786165196687 / 10000000000000)) by field. apply Rinv_le_contravar; lra.
  - replace (10000000000000 / 5786165196683) with (/ (5786165196683 / 10000000000000)) by field. apply Rinv_le_contravar; lra.
Qed.

Lemma r_powers : r ^ 2 / r = r /\ r ^ 4 / r = 1 / 2 /\ r ^ 6 = 1 / 4 /\ r ^ 10 / r = 1 / 8 /\ r ^ 12 = 1 / 16 /\ r ^ 16 / r = 1 / 32 /\ r ^ 2 * r = 1 / 2 /\ r ^ 8 * r = 1 / 8 /\ r ^ 14 * r = 1 / 32.
Proof.
  pose proof r_cube as E. pose proof r_pos as P.
  assert (E6 : r ^ 6 = 1 / 4) by (replace (r ^ 6) with (r ^ 3 * r ^ 3) by ring; rewrite E; lra). assert (E9 : r ^ 9 = 1 / 8) by (replace (r ^ 9) with (r ^ 6 * r ^ 3) by ring; rewrite E6, E; lra).
  assert (E12 : r ^ 12 = 1 / 16) by (replace (r ^ 12) with (r ^ 6 * r ^ 6) by ring; rewrite E6; lra). assert (E15 : r ^ 15 = 1 / 32) by (replace (r ^ 15) with (r ^ 12 * r ^ 3) by ring; rewrite E12, E; lra).
  repeat split; try assumption; [field; lra | rewrite <- E; field; lra | rewrite <- E9; field; lra | rewrite <- E15; field; lra | rewrite <- E; ring | rewrite <- E9; ring | rewrite <- E15; ring].
Qed.
Definition near (a b e : R) : Prop := Rabs (a - b) <= e.
Lemma abs_le x e : - e <= x <= e -> Rabs x <= e.
Proof. intros H. apply Rabs_le. exact H. Qed.
Ltac numbers := repeat match goal with |- context [?f ?k] => match f with P0 => idtac | P1 => idtac | Q0 => idtac | Q1 => idtac end; let v := eval vm_compute in (f k) in change (f k) with v end; unfold Q2R; cbn [Qnum Qden].
Lemma G_match k : (k < 8)%nat -> Rabs (cs k / cs 0 - G_coefficient p q g13 g23 k / G_coefficient p q g13 g23 0) <= if (k <=? 2)%nat then 4 / 100000000000 else 1 / 1000000000000.
Proof.
  intros Hk. rewrite G_order by lia. pose proof s_bounds as S. destruct r_powers as (R1 & R2 & R3 & R5 & R6 & R8 & _).
  assert (E : forall k, cs k / cs 0 = nth k [1; 0; 4959570165 / 100000000000; - (8888888889 / 1000000000000); 0; 2455199181 / 1000000000000; - (9108958061 / 10000000000000); 0; 2534684115 / 10000000000000] 0).
  { intros i. unfold cs. cbn [nth]. field. } rewrite E. apply abs_le.
  assert (C : (k = 0 \/ k = 1 \/ k = 2 \/ k = 3 \/ k = 4 \/ k = 5 \/ k = 6 \/ k = 7)%nat) by lia.
  destruct C as [->|[->|[->|[->|[->|[->|[->| ->]]]]]]]; cbn [nth Nat.leb Nat.mul Nat.add]; (numbers); rewrite ?pow_O, ?R1, ?R2, ?R3, ?R5, ?R6, ?R8; unfold Rdiv; rewrite ?(Rmult_0_l (/ 1)), ?Rmult_0_r, ?Rmult_0_l; lra.
Qed.
Lemma G_last : 2534 / 10000000 <= cs 8 / cs 0 <= 2535 / 10000000 /\ 845361 / 1000000000 <= G_coefficient p q g13 g23 8 / G_coefficient p q g13 g23 0 <= 845363 / 1000000000.
Proof.
  rewrite G_order by lia. pose proof s_bounds as S. destruct r_powers as (R1 & R2 & R3 & R5 & R6 & R8 & _).
  assert (E : cs 8 / cs 0 = 2534684115 / 10000000000000) by (unfold cs; cbn [nth]; field). rewrite E. split; [lra|]. cbn [Nat.mul Nat.add]. numbers. rewrite R8. lra.
Qed.
Lemma G'_match k : (k <= 8)%nat -> Rabs (ds k / ds 0 - G'_coefficient p q g13 g23 k / G'_coefficient p q g13 g23 0) <= if (k <=? 2)%nat then 4 / 100000000000 else 1 / 1000000000000.
Proof.
  intros Hk. rewrite G'_order by lia. pose proof inverse_bounds as S. destruct r_powers as (R1 & _ & R3 & _ & R6 & _ & R2 & R8 & R14).
  assert (E : forall k, ds k / ds 0 = nth k [1; - (1728260369 / 10000000000); 0; 3174603174 / 10000000000000; - (3581214850 / 1000000000000); 0; 3117824680 / 10000000000000; - (9073966427 / 10000000000000); 0] 0).
  { intros i. unfold ds. cbn [nth]. field. } rewrite E. apply abs_le.
  assert (C : (k = 0 \/ k = 1 \/ k = 2 \/ k = 3 \/ k = 4 \/ k = 5 \/ k = 6 \/ k = 7 \/ k = 8)%nat) by lia.
  destruct C as [->|[->|[->|[->|[->|[->|[->|[->| ->]]]]]]]]; cbn [nth Nat.leb Nat.mul Nat.add]; (numbers); rewrite ?pow_O, ?R2, ?R3, ?R6, ?R8, ?R14; unfold Rdiv; rewrite ?(Rmult_0_l (/ 1)), ?Rmult_0_r, ?Rmult_0_l; lra.
Qed.
Lemma first_match : Rabs (cs 0 - G_coefficient p q g13 g23 0) <= 1 / 1000000000 /\ Rabs (ds 0 - G'_coefficient p q g13 g23 0) <= 1 / 10000000000.
Proof.
  rewrite G_zero, G'_zero. pose proof (start_bounds g23 H23). pose proof (start'_bounds g13 H13). unfold cs, ds. cbn [nth]. split; apply abs_le; lra.
Qed.
End Orders.

Theorem coefficients_but_last : exists c d : nat -> R,
  (forall y, 0 < y -> omGcase2 exact (Fin y) = (Fin (sum_f_R0 (fun k => c k * Rpower y (1 / 6 - 2 * INR k / 3)) 8), Fin (sum_f_R0 (fun k => d k * Rpower y (- (1 / 6) - 2 * INR k / 3)) 8))) /\
  forall p q g13 g23, turning_expansion 8 p q -> is_Gamma (1 / 3) g13 -> is_Gamma (2 / 3) g23 ->
  let G := G_coefficient p q g13 g23 in let G' := G'_coefficient p q g13 g23 in
  Rabs (c 0%nat - G 0%nat) <= 1 / 1000000000 /\ Rabs (d 0%nat - G' 0%nat) <= 1 / 10000000000 /\
  (forall k, (k < 8)%nat -> Rabs (c k / c 0%nat - G k / G 0%nat) <= if (k <=? 2)%nat then 4 / 100000000000 else 1 / 1000000000000) /\
  (forall k, (k <= 8)%nat -> Rabs (d k / d 0%nat - G' k / G' 0%nat) <= if (k <=? 2)%nat then 4 / 100000000000 else 1 / 1000000000000).
Proof.
  exists cs, ds. split; [intros y Hy; apply code_form; exact Hy|]. intros p q g13 g23 T H13 H23 G G'. destruct (first_match p q g13 g23 T H13 H23) as [F F'].
  split; [exact F|]. split; [exact F'|]. split; [intros k Hk; apply G_match; assumption|]. intros k Hk; apply G'_match; assumption.
Qed.
Theorem last_wrong : exists c : nat -> R,
  (forall y, 0 < y -> exists p1, omGcase2 exact (Fin y) = (Fin (sum_f_R0 (fun k => c k * Rpower y (1 / 6 - 2 * INR k / 3)) 8), Fin p1)) /\
  forall p q g13 g23, turning_expansion 8 p q -> is_Gamma (1 / 3) g13 -> is_Gamma (2 / 3) g23 ->
  let G := G_coefficient p q g13 g23 in
  2534 / 10000000 <= c 8%nat / c 0%nat <= 2535 / 10000000 /\ 845361 / 1000000000 <= G 8%nat / G 0%nat <= 845363 / 1000000000.
Proof.
  exists cs. split; [intros y Hy; eexists; apply code_form; exact Hy|]. intros p q g13 g23 T H13 H23 G. apply G_last; assumption.
Qed.
Lemma first_orders p q : turning_expansion 8 p q -> p 1%nat 0 = 0 /\ q 2%nat 0 = - (6 / 35) /\ p 3%nat 0 = - (8 / 225).
Proof.
  intros T. destruct (values p q T 1 ltac:(lia)) as (-> & _). destruct (values p q T 2 ltac:(lia)) as (_ & -> & _). destruct (values p q T 3 ltac:(lia)) as (-> & _).
  change (P0 1) with 0%Q. change (Q0 2) with (Qmake (-6) 35). change (P0 3) with (Qmake (-8) 225). unfold Q2R. cbn. lra.
Qed.
