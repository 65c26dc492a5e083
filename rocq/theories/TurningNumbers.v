(** The numbers of the expansion at the turning point. *)
From Coq Require Import Reals QArith Qreals List Lra Lia Machin.
From Coquelicot Require Import Coquelicot.
From Verif Require Import TurningSpec TurningProofs TurningSeries TurningExpansion GammaThirds.
Import ListNotations.
Open Scope R_scope.

(** * Gamma (1/3) and Gamma (2/3) *)
Fixpoint q_value (l : list Q) (x : Q) : Q := match l with [] => 0%Q | a :: l => Qred (a + x * q_value l x)%Q end.
Lemma q_value_value l x : Q2R (q_value l x) = polynomial (real_list l) (Q2R x).
Proof. induction l as [|a l IH]; cbn [q_value real_list map polynomial]; [apply Q2R_0|]. rewrite (Qeq_eqR _ _ (Qred_correct _)), Q2R_plus, Q2R_mult, IH. reflexivity. Qed.
Lemma first_cube_1 : Q2R (fst (q_cube 1 0)) = cube 1 1.
Proof. unfold cube. cbn [INR rising fact Nat.mul Nat.add]. change (q_cube 1 0) with ((729 # 64)%Q, 1%Z). unfold Q2R. cbn. field. Qed.
Lemma first_cube_2 : Q2R (fst (q_cube 2 0)) = cube 2 1.
Proof. unfold cube. cbn [INR rising fact Nat.mul Nat.add]. change (q_cube 2 0) with ((729 # 1000)%Q, 1%Z). unfold Q2R. cbn. field. Qed.
Lemma INR_60 : / INR 60 = Q2R (1 # 60).
Proof. rewrite INR_IZR_INZ. change (Z.of_nat 60) with 60%Z. unfold Q2R. cbn. field. Qed.
Lemma bound_at j l : (0 < j)%nat -> Q2R (fst (q_cube j 0)) = cube j 1 -> cube j 60 * polynomial (real_list l) (/ INR 60) = Q2R (fst (q_cube j 59) * q_value l (1 # 60)).
Proof. intros Hj F. destruct (q_cube_value j Hj F 59) as [E _]. rewrite Q2R_mult, E, q_value_value, INR_60. reflexivity. Qed.
Lemma gamma_13 g : is_Gamma (1 / 3) g -> 19225969452593 / 1000000000000 <= g ^ 3 <= 19225969452598 / 1000000000000.
Proof.
  intros H. replace (1 / 3) with (INR 1 / 3) in H by (cbn [INR]; lra).
  pose proof (Gamma_bounds 1 ltac:(lia) (real_list up1) (real_list down1)) as B.
  specialize (B ltac:(rewrite value_zero; unfold Q2R; cbn; field) ltac:(rewrite value_zero; unfold Q2R; cbn; field) up1_correct down1_correct g H 60%nat ltac:(lia)).
  unfold lower, upper in B. rewrite (bound_at 1 down1 ltac:(lia) first_cube_1), (bound_at 1 up1 ltac:(lia) first_cube_1) in B.
  assert (L : (19225969452593 # 1000000000000 <= fst (q_cube 1 59) * q_value down1 (1 # 60))%Q) by (apply Qle_bool_iff; vm_compute; reflexivity).
  assert (U : (fst (q_cube 1 59) * q_value up1 (1 # 60) <= 19225969452598 # 1000000000000)%Q) by (apply Qle_bool_iff; vm_compute; reflexivity).
  apply Qle_Rle in L. apply Qle_Rle in U. unfold Q2R at 1 in L. unfold Q2R at 2 in U. cbn [Qnum Qden] in L, U. lra.
Qed.
Lemma gamma_23 g : is_Gamma (2 / 3) g -> 2482958581215 / 1000000000000 <= g ^ 3 <= 24829585812155 / 10000000000000.
Proof.
  intros H. replace (2 / 3) with (INR 2 / 3) in H by (cbn [INR]; lra).
  pose proof (Gamma_bounds 2 ltac:(lia) (real_list up2) (real_list down2)) as B.
  specialize (B ltac:(rewrite value_zero; unfold Q2R; cbn; field) ltac:(rewrite value_zero; unfold Q2R; cbn; field) up2_correct down2_correct g H 60%nat ltac:(lia)).
  unfold lower, upper in B. rewrite (bound_at 2 down2 ltac:(lia) first_cube_2), (bound_at 2 up2 ltac:(lia) first_cube_2) in B.
  assert (L : (2482958581215 # 1000000000000 <= fst (q_cube 2 59) * q_value down2 (1 # 60))%Q) by (apply Qle_bool_iff; vm_compute; reflexivity).
  assert (U : (fst (q_cube 2 59) * q_value up2 (1 # 60) <= 24829585812155 # 10000000000000)%Q) by (apply Qle_bool_iff; vm_compute; reflexivity).
  apply Qle_Rle in L. apply Qle_Rle in U. unfold Q2R at 1 in L. unfold Q2R at 2 in U. cbn [Qnum Qden] in L, U. lra.
Qed.
Lemma above_one l t : 0 <= t <= 1 -> (forall s, 0 <= s <= 1 -> 0 <= polynomial l s) -> 1 <= polynomial (1 :: l) t.
Proof. intros Ht H. cbn [polynomial]. pose proof (H t Ht). nra. Qed.
Lemma gamma_exists : (exists g, 0 < g /\ is_Gamma (1 / 3) g) /\ (exists g, 0 < g /\ is_Gamma (2 / 3) g).
Proof.
  assert (Pw : forall t, 0 <= t <= 1 -> 0 <= t ^ 2 <= 1 /\ 0 <= t ^ 3 <= 1 /\ 0 <= t ^ 4 <= 1 /\ 0 <= t ^ 5 <= 1 /\ 0 <= t ^ 6 <= 1).
  { intros t Ht. assert (B : forall n, 0 <= t ^ n <= 1) by (intros n; split; [apply pow_le; lra | rewrite <- (pow1 n); apply pow_incr; lra]). repeat split; apply B. }
  split.
  - replace (1 / 3) with (INR 1 / 3) by (cbn [INR]; lra).
    apply (Gamma_exists 1 ltac:(lia) (real_list up1) (real_list down1)); [rewrite value_zero; unfold Q2R; cbn; field | rewrite value_zero; unfold Q2R; cbn; field | apply up1_correct | apply down1_correct | cbn; unfold Q2R; cbn; lra|].
    intros t Ht. cbn [real_list map up1]. replace (Q2R 1) with 1 by (unfold Q2R; cbn; field). apply above_one; [exact Ht|]. intros s Hs. cbn [polynomial]. unfold Q2R. cbn [Qnum Qden].
    pose proof (Pw s Hs) as (A2 & A3 & A4 & A5 & A6). 
    match goal with |- 0 <= ?e => replace e with (2 / 3 + 1 / 27 * s - 2 / 81 * s ^ 2 + 8 / 729 * s ^ 3 - 256 / 59049 * s ^ 5 + 1 / 4 * s ^ 6) by (cbn [pow]; field) end. lra.
  - replace (2 / 3) with (INR 2 / 3) by (cbn [INR]; lra).
    apply (Gamma_exists 2 ltac:(lia) (real_list up2) (real_list down2)); [rewrite value_zero; unfold Q2R; cbn; field | rewrite value_zero; unfold Q2R; cbn; field | apply up2_correct | apply down2_correct | cbn; unfold Q2R; cbn; lra|].
    intros t Ht. cbn [real_list map up2]. replace (Q2R 1) with 1 by (unfold Q2R; cbn; field). apply above_one; [exact Ht|]. intros s Hs. cbn [polynomial]. unfold Q2R. cbn [Qnum Qden].
    pose proof (Pw s Hs) as (A2 & A3 & A4 & A5 & A6).
    match goal with |- 0 <= ?e => replace e with (5 / 3 + 20 / 27 * s - 4 / 729 * s ^ 3 + 20 / 2187 * s ^ 4 - 500 / 59049 * s ^ 5 + 1 / 4 * s ^ 6) by (cbn [pow]; field) end. lra.
Qed.

(** * Pi, by Machin's formula *)
Fixpoint q_pow (x : Q) (n : nat) : Q := match n with O => 1%Q | S n => Qred (x * q_pow x n) end.
Definition q_machin (n : nat) : Q := (q_pow (-1) n * ((2 * q_pow (1 # 3) (2 * n + 1) + q_pow (1 # 7) (2 * n + 1)) / inject_Z (2 * Z.of_nat n + 1)))%Q.
Lemma q_pow_value x n : Q2R (q_pow x n) = Q2R x ^ n.
Proof. induction n as [|n IH]; cbn [q_pow pow]; [unfold Q2R; cbn; field|]. rewrite (Qeq_eqR _ _ (Qred_correct _)), Q2R_mult, IH. reflexivity. Qed.
Lemma q_machin_value n : Q2R (q_machin n) = tg_alt PI_2_3_7_tg n.
Proof.
  assert (P : 0 < INR (2 * n + 1)) by (apply lt_0_INR; lia).
  assert (E : IZR (2 * Z.of_nat n + 1) = INR (2 * n + 1)) by (rewrite INR_IZR_INZ; f_equal; lia).
  unfold q_machin, tg_alt, PI_2_3_7_tg, Ratan_seq. rewrite Q2R_mult, Q2R_div, Q2R_plus, Q2R_mult, !q_pow_value, Q2R_int, Q2R_2, Q2R_m1, E.
  - replace (Q2R (1 # 3)) with (/ 3) by (unfold Q2R; cbn; field). replace (Q2R (1 # 7)) with (/ 7) by (unfold Q2R; cbn; field). set (a := (/ 3) ^ (2 * n + 1)). set (b := (/ 7) ^ (2 * n + 1)). field. lra.
  - intros Z0. apply Qeq_eqR in Z0. rewrite Q2R_int, Q2R_0, E in Z0. lra.
Qed.
Lemma machin_sum n : sum_f_R0 (tg_alt PI_2_3_7_tg) n = Q2R (q_total q_machin n).
Proof. rewrite q_total_value. apply sum_eq. intros i _. symmetry. apply q_machin_value. Qed.
Lemma pi_bounds : 31415926535897 / 10000000000000 <= PI <= 31415926535898 / 10000000000000.
Proof.
  destruct (PI_2_3_7_ineq 7) as [L U]. rewrite machin_sum in L, U. change (S (2 * 7)) with 15%nat in L. change (2 * 7)%nat with 14%nat in U.
  assert (L' : (31415926535897 # 40000000000000 <= q_total q_machin 15)%Q) by (apply Qle_bool_iff; vm_compute; reflexivity).
  assert (U' : (q_total q_machin 14 <= 31415926535898 # 40000000000000)%Q) by (apply Qle_bool_iff; vm_compute; reflexivity).
  apply Qle_Rle in L'. apply Qle_Rle in U'. unfold Q2R at 1 in L'. unfold Q2R at 2 in U'. cbn [Qnum Qden] in L', U'. lra.
Qed.

(** * Roots by powers *)
Lemma pow_strict a b n : 0 <= a < b -> a ^ S n < b ^ S n.
Proof.
  intros H. induction n as [|n IH]; [cbn; lra|]. change (a * a ^ S n < b * b ^ S n). assert (0 <= a ^ S n) by (apply pow_le; lra). apply Rmult_le_0_lt_compat; lra.
Qed.
Lemma pow_between a b x n : 0 < x -> 0 <= a -> 0 <= b -> a ^ S n <= x ^ S n <= b ^ S n -> a <= x <= b.
Proof.
  intros Hx Ha Hb [L U]. split; apply Rnot_lt_le; intros C.
  - assert (x ^ S n < a ^ S n) by (apply pow_strict; lra). lra.
  - assert (b ^ S n < x ^ S n) by (apply pow_strict; lra). lra.
Qed.
