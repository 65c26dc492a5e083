(** Where the starting values of the Coulomb wave functions are given up. *)
From Coq Require Import String List ZArith Reals Bool Lia Lra.
From Coquelicot Require Import Coquelicot.
From Verif Require Import Outcome ListFacts CoulombWaveModel CoulombWaveSpec CoulombWaveProofs CoulombExactModel CoulombExactProofs CoulombRealProofs CoulombRiccatiProofs.
Import ListNotations.
Open Scope R_scope.

Section Low.
Variable y : R.
Hypothesis Hy : 800 <= y.
Let t := 8 / y.
Lemma t_low : 0 < t <= 1 / 100.
Proof. unfold t. split; [apply Rdiv_lt_0_compat; lra|]. apply (Rmult_le_reg_r y); [lra|]. unfold Rdiv at 1. rewrite Rmult_assoc, Rinv_l by lra. lra. Qed.
Definition small_root := t / s3 t.
Lemma small_root_range : 0 < small_root <= 1 / 9.
Proof.
  pose proof t_low as T. pose proof (s3_pos t ltac:(lra)) as P. pose proof (s3_sq t ltac:(lra)) as Q. unfold small_root. split; [apply Rdiv_lt_0_compat; lra|].
  apply (Rmult_le_reg_r (s3 t)); [lra|]. unfold Rdiv at 1. rewrite Rmult_assoc, Rinv_l by lra. 
  assert (C : 97 / 100 <= (1 - t) * (1 - t) * (1 - t)) by nra. assert (81 * (t * t) <= s3 t * s3 t) by (rewrite Q; nra). nra.
Qed.
Definition n2 := - (8 * t * t - 12 * t + 9) / 768.
Definition n3 := (8 * t - 3) / 16384.
Definition n4 := (t * (t * (t * (t * (t * (2048 * t - 9216) + 16128) - 13440) - 12240) + 7560) - 1890) / 377487360.
Definition n5 := 3 * (t * (t * (1024 * t - 448) + 208) - 39) / 536870912.
Definition n6 := - (t * (t * (t * (t * (t * (t * (t * (t * (t * (262144 * t - 1966080) + 6389760) - 11714560)
                 + 13178880) - 9225216) + 13520640) - 3588480) + 2487240) - 873180) + 130977) / 10823317585920.
Definition n7 := (t * (t * (t * (t * (1105920 * t - 55296) + 314624) - 159552) + 45576) - 5697) / 6597069766656.
Lemma qq_low_form : qq y t = - 2 * y * c0 t + c1 t - n2 * small_root + n3 * small_root ^ 2 - n4 * small_root ^ 3 + n5 * small_root ^ 4 - n6 * small_root ^ 5 + n7 * small_root ^ 6.
Proof.
  pose proof t_low as T. pose proof (s3_pos t ltac:(lra)) as P. pose proof (s3_sq t ltac:(lra)) as Q. unfold qq, c2, c3, c4, c5, c6, c7. rewrite <- Q. unfold small_root, n2, n3, n4, n5, n6, n7.
  assert (Z : 1 / (2 * y) = t / 16) by (unfold t; field; lra). rewrite Z. set (s := s3 t) in *. generalize (c0 t) (c1 t). intros. field. lra.
Qed.
Lemma step_minus p c b : - b <= p <= b -> - (b / 2) <= c <= b / 2 -> - b <= t * p - c <= b.
Proof. pose proof t_low as T. intros; nra. Qed.
Lemma step_plus p c b : - b <= p <= b -> - (b / 2) <= c <= b / 2 -> - b <= t * p + c <= b.
Proof. pose proof t_low as T. intros; nra. Qed.
Lemma qq_low : 100 < qq y t.
Proof.
  pose proof t_low as T. rewrite qq_low_form. pose proof small_root_range as E. set (e := small_root) in *. pose proof Rtrigo1.PI_4 as P4. pose proof PI_RGT_0 as P0.
  assert (R1 : sqrt t <= 1 / 10). { apply Rle_trans with (sqrt (1 / 10 * (1 / 10))); [apply sqrt_le_1; lra | rewrite sqrt_square; lra]. }
  assert (R2 : sqrt (t * (1 - t)) <= 1 / 10). { apply Rle_trans with (sqrt (1 / 10 * (1 / 10))); [apply sqrt_le_1; nra | rewrite sqrt_square; lra]. }
  assert (A : asin (sqrt t) <= PI / 6). { pose proof (sqrt_pos t). destruct (Rle_lt_dec (asin (sqrt t)) (PI / 6)) as [L|L]; [exact L|]. exfalso. pose proof (asin_bound (sqrt t)) as B.
    assert (S : sin (PI / 6) < sin (asin (sqrt t))) by (apply sin_increasing_1; lra). rewrite sin_asin, sin_PI6 in S by lra. lra. }
  assert (C0 : c0 t <= - (8 / 10)) by (unfold c0; assert (157 / 100 <= @PI_2 real) by (cbv [PI_2 real dec real_dec]; lra); lra).
  assert (C1 : - (y / 8) / 4 <= c1 t). { unfold c1. assert (L : - (y / 8) <= ln (t / (1 - t))); [|lra].
    assert (L1 : ln (y / 8) <= y / 8). { pose proof (exp_ineq1_le (ln (y / 8))) as I. rewrite exp_ln in I by lra. lra. }
    apply Rle_trans with (ln t). - unfold t. replace (8 / y) with (/ (y / 8)) by (field; lra). rewrite ln_Rinv by lra. lra.
    - apply ln_le; [lra|]. apply (Rmult_le_reg_r (1 - t)); [lra|]. unfold Rdiv. rewrite Rmult_assoc, Rinv_l by lra. nra. }
  assert (T2 : 0 <= t * t <= 1 / 10000) by nra. assert (T3 : 0 <= t * t * t <= 1 / 1000000) by nra.
  assert (N2 : - 1 <= n2 <= 1) by (unfold n2; lra). assert (N3 : - 1 <= n3 <= 1) by (unfold n3; lra).
  assert (N4 : - 1 <= n4 <= 1). { unfold n4. assert (Q : - 40000 <= t * (t * (t * (t * (t * (2048 * t - 9216) + 16128) - 13440) - 12240) + 7560) - 1890 <= 40000) by (repeat (apply step_minus || apply step_plus); lra). lra. }
  assert (N5 : - 1 <= n5 <= 1). { unfold n5. assert (Q : - 4000 <= t * (t * (1024 * t - 448) + 208) - 39 <= 4000) by (repeat (apply step_minus || apply step_plus); lra). lra. }
  assert (N6 : - 1 <= n6 <= 1). { unfold n6. assert (Q : - 28000000 <= t * (t * (t * (t * (t * (t * (t * (t * (t * (262144 * t - 1966080) + 6389760) - 11714560)
                 + 13178880) - 9225216) + 13520640) - 3588480) + 2487240) - 873180) + 130977 <= 28000000) by (repeat (apply step_minus || apply step_plus); lra). lra. }
  assert (N7 : - 1 <= n7 <= 1). { unfold n7. assert (Q : - 4000000 <= t * (t * (t * (t * (1105920 * t - 55296) + 314624) - 159552) + 45576) - 5697 <= 4000000) by (repeat (apply step_minus || apply step_plus); lra). lra. }
  assert (E2 : 0 <= e ^ 2 <= 1) by nra. assert (E3 : 0 <= e ^ 3 <= 1) by (replace (e ^ 3) with (e ^ 2 * e) by ring; nra). assert (E4 : 0 <= e ^ 4 <= 1) by (replace (e ^ 4) with (e ^ 3 * e) by ring; nra).
  assert (E5 : 0 <= e ^ 5 <= 1) by (replace (e ^ 5) with (e ^ 4 * e) by ring; nra). assert (E6 : 0 <= e ^ 6 <= 1) by (replace (e ^ 6) with (e ^ 5 * e) by ring; nra).
  assert (B : forall a b, - 1 <= a <= 1 -> 0 <= b <= 1 -> - 1 <= a * b <= 1) by (intros; nra).
  pose proof (B n2 e N2 ltac:(lra)). pose proof (B _ _ N3 E2). pose proof (B _ _ N4 E3). pose proof (B _ _ N5 E4). pose proof (B _ _ N6 E5). pose proof (B _ _ N7 E6).
  assert (8 / 10 * y <= - c0 t * y) by nra. lra.
Qed.
End Low.

Theorem low_zero l rho y : 800 <= y -> rho <= 16 -> (0 <= l <= 59)%Z ->
  coulombWaveFunctions exact l (Fin rho) (Fin y) = Ok ((Fin 0, Fin 0), (Fin 0, Fin 0)).
Proof.
  intros Hy Hr Hl. unfold coulombWaveFunctions, omExternalFunction, startValues.
  assert (E0 : eqb (Fin y : exact) #0%num = false) by (apply Reqb_false; lra). rewrite E0.
  assert (E : omAsymptotic exact (Fin rho) (Fin y) (sigma0_of exact (Fin y)) = Ok (Fin 0, Fin 0)).
  { unfold omAsymptotic, startAsymptotic. assert (L : le (#15%num : exact) (Fin y) = true) by (change (Rltb 15 y || Reqb 15 y = true); rewrite Rltb_true by lra; reflexivity). rewrite L.
    assert (L' : lt (#16%num : exact) (Fin rho) = false) by (apply Rltb_false; lra). cbv zeta. rewrite L'. cbn [bind].
    change (#16%num : exact) with (Fin 16 : exact). rewrite case1_lift by lra. rewrite case1_real. replace (16 * (1 / (2 * y))) with (8 / y) by (field; lra). rewrite Rltb_true by (apply qq_low; exact Hy).
    unfold lifted. cbn [fst snd]. assert (Z : eqb (Fin 0 : exact) #0%num = true) by (change (Reqb 0 0 = true); unfold Reqb; destruct (Req_EM_T 0 0); [reflexivity | contradiction]). rewrite Z. reflexivity. }
  rewrite E. cbn [bind]. assert (Z : eqb (Fin 0 : exact) #0%num = true) by (change (Reqb 0 0 = true); unfold Reqb; destruct (Req_EM_T 0 0); [reflexivity | contradiction]). rewrite Z. cbn [andb bind].
  match goal with |- context [array_set exact ?w 0 ?v] => destruct (set_total exact w 0 v) as (w' & -> & L1 & R1); [rewrite repeat_length; lia|] end. cbn [bind].
  rewrite (proj2 (get_read exact w' l (Fin 0, Fin 0))).
  - cbn [bind]. rewrite (proj2 (get_read exact _ l (Fin 0, Fin 0))); [reflexivity|]. unfold read. destruct (Z.ltb_spec l 0); [lia|]. rewrite nth_error_repeat by lia. reflexivity.
  - rewrite R1. destruct (Z.eqb_spec l 0); [reflexivity|]. unfold read. destruct (Z.ltb_spec l 0); [lia|]. rewrite nth_error_repeat by lia. reflexivity.
Qed.
