(** Where the Coulomb wave functions are started, and the steps from there. *)
From Coq Require Import String List ZArith Reals Bool Lia Lra.
From Coquelicot Require Import Coquelicot.
From Verif Require Import Outcome ListFacts CoulombWaveModel CoulombWaveSpec CoulombWaveProofs CoulombExactModel CoulombExactProofs CoulombRealProofs CoulombRiccatiProofs CoulombOscillationProofs.
Import ListNotations.
Open Scope R_scope.

Lemma Rleb_false x y : y < x -> Rleb x y = false.
Proof. intros H. unfold Rleb. destruct (Rle_dec x y); [lra | reflexivity]. Qed.
Lemma le_true a b : a <= b -> le (Fin a : exact) (Fin b) = true.
Proof.
  intros H. change (Rltb a b || Reqb a b = true). unfold Rltb, Reqb. destruct (Rlt_dec a b); [reflexivity|]. destruct (Req_EM_T a b); [reflexivity | lra].
Qed.
Lemma le_false a b : b < a -> le (Fin a : exact) (Fin b) = false.
Proof. intros H. change (Rltb a b || Reqb a b = false). rewrite Rltb_false, Reqb_false by lra. reflexivity. Qed.
Lemma lt_true a b : a < b -> lt (Fin a : exact) (Fin b) = true.
Proof. intros H. exact (Rltb_true a b H). Qed.
Lemma lt_false a b : b <= a -> lt (Fin a : exact) (Fin b) = false.
Proof. intros H. exact (Rltb_false a b H). Qed.
Lemma eqb_zero : eqb (Fin 0 : exact) #0%num = true.
Proof. change (Reqb 0 0 = true). unfold Reqb. destruct (Req_EM_T 0 0); [reflexivity | contradiction]. Qed.
Lemma eqb_nonzero a : a <> 0 -> eqb (Fin a : exact) #0%num = false.
Proof. intros H. exact (Reqb_false a 0 H). Qed.
Lemma negative_num a : (sub (Fin a : exact) (Fin a)) = Fin 0.
Proof. change (Fin (a - a) = Fin 0). f_equal. ring. Qed.

(** No step is taken from where the wave is wanted *)
Lemma asymptotic_there r y s p : startAsymptotic exact (Fin r) (Fin y) s = Ok (Fin r, p) -> omAsymptotic exact (Fin r) (Fin y) s = Ok p.
Proof.
  intros E. unfold omAsymptotic. rewrite E. cbn [bind]. destruct p as [p0 p1]. rewrite negative_num, eqb_zero. cbn [negb]. destruct (negb (eqb p0 #0%num) && negb (eqb p1 #0%num)); reflexivity.
Qed.
Theorem asymptotic_oscillation r y s : 5 <= y < 15 -> 25 / 10 * y + 75 / 10 <= r -> omAsymptotic exact (Fin r) (Fin y) s = Ok (omGcase4 exact (Fin r) (Fin y)).
Proof.
  intros Hy Hr. apply asymptotic_there. unfold startAsymptotic. change (#15%num : exact) with (Fin 15 : exact). change (#5%num : exact) with (Fin 5 : exact).
  rewrite le_false, le_true by lra. cbv zeta. change (#2%num * (Fin y : exact))%num with (Fin (2 * y) : exact). rewrite lt_true by lra.
  change (dec 25 (-1) * (Fin y : exact) + dec 75 (-1))%num with (Fin (25 / 10 * y + 75 / 10) : exact).
  destruct (Req_dec (25 / 10 * y + 75 / 10) r) as [<-|N]; [rewrite lt_false by lra; reflexivity | rewrite lt_true by lra; reflexivity].
Qed.
Theorem asymptotic_riccati r y s : 15 <= y -> 16 < r <= 5 * y / 3 - 5 -> omAsymptotic exact (Fin r) (Fin y) s = Ok (omGcase1 exact (Fin r) (Fin y)).
Proof.
  intros Hy Hr. apply asymptotic_there. unfold startAsymptotic. change (#15%num : exact) with (Fin 15 : exact). rewrite le_true by lra. cbv zeta.
  change (#16%num : exact) with (Fin 16 : exact). rewrite lt_true by lra.
  assert (E : (#5 * (Fin y : exact) / #3 - #5)%num = (Fin (5 * y / 3 - 5) : exact)).
  { change (ext_sub (ext_div (Fin (5 * y)) (Fin 3)) (Fin 5) = Fin (5 * y / 3 - 5)). rewrite div_Fin by lra. reflexivity. }
  rewrite E, le_true by lra. reflexivity.
Qed.

(** * Above eta = 15, near the turning point *)
Definition at_turning (y : R) : R * R := omGcase2 real y.
Lemma case2_lift y : 0 < y -> omGcase2 exact (Fin y) = lifted (at_turning y).
Proof.
  intros Hy. cbv beta delta [omGcase2]. unfold lifted, at_turning. cbv beta delta [omGcase2]. cbn [fst snd]. 
  match goal with |- (?a, ?b) = (Fin ?c, Fin ?d) => 
    eassert (E1 : a = Fin _) by (norm; lift; first [exact Hy | cbn [real_dec]; lra]); eassert (E2 : b = Fin _) by (norm; lift; first [exact Hy | cbn [real_dec]; lra]); rewrite E1, E2; reflexivity end.
Qed.
Lemma start_turning r y s : 15 <= y -> 16 < r -> 5 * y / 3 - 5 < r -> startAsymptotic exact (Fin r) (Fin y) s = Ok (Fin (2 * y), omGcase2 exact (Fin y)).
Proof.
  intros Hy H1 H2. unfold startAsymptotic. change (#15%num : exact) with (Fin 15 : exact). rewrite le_true by lra. cbv zeta.
  change (#16%num : exact) with (Fin 16 : exact). rewrite lt_true by lra.
  assert (E : (#5 * (Fin y : exact) / #3 - #5)%num = (Fin (5 * y / 3 - 5) : exact)).
  { change (ext_sub (ext_div (Fin (5 * y)) (Fin 3)) (Fin 5) = Fin (5 * y / 3 - 5)). rewrite div_Fin by lra. reflexivity. }
  rewrite E, le_false by lra. reflexivity.
Qed.
Lemma Rpower_small y a : 1 <= y -> a <= 0 -> 0 < Rpower y a <= 1.
Proof.
  intros Hy Ha. split; [apply exp_pos|]. unfold Rpower. rewrite <- exp_0. assert (0 <= ln y) by (rewrite <- ln_1; apply ln_le; lra).
  destruct (Rle_lt_or_eq_dec (a * ln y) 0) as [L|L]; [nra | apply Rlt_le, exp_increasing; exact L | rewrite L; lra].
Qed.
Lemma at_turning_signs y : 1 <= y -> 0 < fst (at_turning y) /\ snd (at_turning y) < 0.
Proof.
  intros Hy. unfold at_turning, omGcase2. cbn [fst snd]. cbn [real num dec add sub mul div fpow]. unfold real_dec.
  pose proof (Rpower_small y (-4 / 3) Hy ltac:(lra)) as A1. pose proof (Rpower_small y (-2) Hy ltac:(lra)) as A2. pose proof (Rpower_small y (-10 / 3) Hy ltac:(lra)) as A3. pose proof (Rpower_small y (-4) Hy ltac:(lra)) as A4.
  pose proof (Rpower_small y (-16 / 3) Hy ltac:(lra)) as A5. pose proof (Rpower_small y (-2 / 3) Hy ltac:(lra)) as A6. pose proof (Rpower_small y (-8 / 3) Hy ltac:(lra)) as A7. pose proof (Rpower_small y (-14 / 3) Hy ltac:(lra)) as A8.
  pose proof (exp_pos (1 / 6 * ln y)) as P1. change (exp (1 / 6 * ln y)) with (Rpower y (1 / 6)) in P1. pose proof (exp_pos (-1 / 6 * ln y)) as P2. change (exp (-1 / 6 * ln y)) with (Rpower y (-1 / 6)) in P2.
  change (10 ^ 9)%Z with 1000000000%Z. change (10 ^ 10)%Z with 10000000000%Z. change (10 ^ 11)%Z with 100000000000%Z. change (10 ^ 12)%Z with 1000000000000%Z. change (10 ^ 13)%Z with 10000000000000%Z.
  split.
  - apply Rmult_lt_0_compat; [apply Rmult_lt_0_compat; lra | lra].
  - match goal with |- ?a * ?b * ?c < 0 => assert (0 < - a * b * c) by (apply Rmult_lt_0_compat; [apply Rmult_lt_0_compat; lra | lra]); lra end.
Qed.

Lemma Int_part_bounds a : IZR (Int_part a) <= a < IZR (Int_part a) + 1.
Proof. destruct (base_Int_part a). lra. Qed.
Lemma asymptotic_steps r y s k : 15 <= y -> 16 < r -> 5 * y / 3 - 5 < r -> r <> 2 * y -> Rtrunc ((2 * y - r) / (1 / 100)) = k -> (-1000000 <= k <= 1000000)%Z ->
  omAsymptotic exact (Fin r) (Fin y) s =
  omNewmark exact (Z.abs (k + 1)) (ext_div (Fin (2 * y - r)) (Fin (IZR (Z.abs (k + 1))))) (Fin y) (Fin (2 * y)) (Fin (fst (at_turning y))) (Fin (snd (at_turning y))).
Proof.
  intros Hy H1 H2 N K B. unfold omAsymptotic. rewrite (start_turning r y s Hy H1 H2), case2_lift by lra. cbn [bind]. unfold lifted.
  destruct (at_turning_signs y ltac:(lra)) as [P0 P1]. rewrite !eqb_nonzero by lra. cbn [negb andb].
  change (sub (Fin (2 * y) : exact) (Fin r)) with (Fin (2 * y - r) : exact). rewrite eqb_nonzero by lra. cbn [negb].
  assert (E : div (Fin (2 * y - r) : exact) MESH_RHO = Fin ((2 * y - r) / (1 / 100))) by (change (ext_div (Fin (2 * y - r)) (Fin (1 / 100)) = Fin ((2 * y - r) / (1 / 100))); apply div_Fin; lra).
  rewrite E. assert (T : trunc (Fin ((2 * y - r) / (1 / 100)) : exact) = Some k).
  { change (ext_trunc (Fin ((2 * y - r) / (1 / 100))) = Some k). unfold ext_trunc. rewrite K.
    replace ((-2147483648 <=? k)%Z) with true by (symmetry; apply Z.leb_le; lia). replace ((k <=? 2147483647)%Z) with true by (symmetry; apply Z.leb_le; lia). reflexivity. }
  rewrite T. unfold int_value.
  repeat match goal with |- context [(?a <=? ?b)%Z] => replace ((a <=? b)%Z) with true by (symmetry; apply Z.leb_le; lia) end. cbn [andb bind].
  repeat match goal with |- context [(?a <=? ?b)%Z] => replace ((a <=? b)%Z) with true by (symmetry; apply Z.leb_le; lia) end. cbn [andb bind]. reflexivity.
Qed.

(** Towards the origin, the steps are not longer than the mesh *)
Theorem inward_steps r y s : 15 <= y -> 16 < r -> 5 * y / 3 - 5 < r < 2 * y -> 2 * y - r < 9000 -> let p := at_turning y in
  omGcase2 exact (Fin y) = (Fin (fst p), Fin (snd p)) /\
  exists n h, omAsymptotic exact (Fin r) (Fin y) s = omNewmark exact n (Fin h) (Fin y) (Fin (2 * y)) (Fin (fst p)) (Fin (snd p)) /\ (0 < n)%Z /\ 2 * y - IZR n * h = r /\ Rabs h <= 1 / 100.
Proof.
  intros Hy H1 H2 H3 p. split; [rewrite case2_lift by lra; reflexivity|].
  set (a := (2 * y - r) / (1 / 100)). assert (Ea : a = 100 * (2 * y - r)) by (unfold a; field). destruct (Int_part_bounds a) as [L U].
  assert (K : Rtrunc a = Int_part a) by (unfold Rtrunc; rewrite Rltb_false by lra; reflexivity).
  assert (B : (0 <= Int_part a <= 900000)%Z) by (split; [apply Z.lt_succ_r, lt_IZR; rewrite succ_IZR; lra | apply le_IZR; lra]).
  exists (Int_part a + 1)%Z, ((2 * y - r) / IZR (Int_part a + 1)). rewrite (asymptotic_steps r y s (Int_part a) Hy H1 (proj1 H2) ltac:(lra) K ltac:(lia)).
  rewrite (Z.abs_eq (Int_part a + 1)) by lia. rewrite plus_IZR. assert (P : 1 <= IZR (Int_part a) + 1) by (pose proof (IZR_le 0 (Int_part a) ltac:(lia)); lra).
  rewrite div_Fin by lra. split; [reflexivity|]. split; [lia|]. split; [field; lra|].
  rewrite Rabs_right; [|apply Rle_ge, Rmult_le_pos; [lra | apply Rlt_le, Rinv_0_lt_compat; lra]]. apply (Rmult_le_reg_r (IZR (Int_part a) + 1)); [lra|]. unfold Rdiv at 1. rewrite Rmult_assoc, Rinv_l by lra. lra.
Qed.
(** Away from it, they always are *)
Theorem outward_steps r y s : 15 <= y -> 2 * y + 2 / 100 <= r < 2 * y + 9000 -> let p := at_turning y in
  omGcase2 exact (Fin y) = (Fin (fst p), Fin (snd p)) /\
  exists n h, omAsymptotic exact (Fin r) (Fin y) s = omNewmark exact n (Fin h) (Fin y) (Fin (2 * y)) (Fin (fst p)) (Fin (snd p)) /\ (0 < n)%Z /\ 2 * y - IZR n * h = r /\ 1 / 100 < Rabs h.
Proof.
  intros Hy H2 p. split; [rewrite case2_lift by lra; reflexivity|].
  set (a := (2 * y - r) / (1 / 100)). assert (Ea : a = 100 * (2 * y - r)) by (unfold a; field). destruct (Int_part_bounds (- a)) as [L U]. set (m := Int_part (- a)) in *.
  assert (K : Rtrunc a = (- m)%Z) by (unfold Rtrunc; rewrite Rltb_true by lra; reflexivity).
  assert (B : (2 <= m <= 900000)%Z) by (split; [apply Z.lt_succ_r, lt_IZR; rewrite succ_IZR; lra | apply le_IZR; lra]).
  exists (m - 1)%Z, ((2 * y - r) / IZR (m - 1)). rewrite (asymptotic_steps r y s (- m) Hy ltac:(lra) ltac:(lra) ltac:(lra) K ltac:(lia)).
  replace (Z.abs (- m + 1)) with (m - 1)%Z by lia. rewrite minus_IZR. assert (P : 2 <= IZR m) by (apply IZR_le; lia).
  rewrite div_Fin by lra. split; [reflexivity|]. split; [lia|]. split; [field; lra|].
  rewrite Rabs_left; [|apply (Rmult_lt_reg_r (IZR m - 1)); [lra|]; unfold Rdiv; rewrite Rmult_assoc, Rinv_l by lra; lra].
  apply (Rmult_lt_reg_r (IZR m - 1)); [lra|]. replace (- ((2 * y - r) / (IZR m - 1)) * (IZR m - 1)) with (r - 2 * y) by (field; lra). lra.
Qed.
(** Between one and two lengths of the mesh away from it, there is none *)
Theorem no_steps d y s : 15 <= y -> 1 / 100 <= d < 2 / 100 -> omAsymptotic exact (Fin (2 * y + d)) (Fin y) s = omAsymptotic exact (Fin (2 * y)) (Fin y) s /\ omAsymptotic exact (Fin (2 * y)) (Fin y) s = Ok (omGcase2 exact (Fin y)).
Proof.
  intros Hy Hd. assert (E : omAsymptotic exact (Fin (2 * y)) (Fin y) s = Ok (omGcase2 exact (Fin y))) by (apply asymptotic_there, start_turning; lra).
  split; [|exact E]. rewrite E. set (r := 2 * y + d).
  set (a := (2 * y - r) / (1 / 100)). assert (Ea : a = - 100 * d) by (unfold a, r; field). destruct (Int_part_bounds (- a)) as [L U]. set (m := Int_part (- a)) in *.
  assert (M : m = 1%Z) by (assert (0 < m < 2)%Z by (split; apply lt_IZR; lra); lia).
  assert (K : Rtrunc a = (-1)%Z) by (unfold Rtrunc; rewrite Rltb_true by lra; fold m; rewrite M; reflexivity).
  rewrite (asymptotic_steps r y s (-1) Hy ltac:(unfold r; lra) ltac:(unfold r; lra) ltac:(unfold r; lra) K ltac:(lia)), case2_lift by lra. reflexivity.
Qed.
