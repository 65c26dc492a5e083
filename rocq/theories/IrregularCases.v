(** Cases for the asymptotic expansion: one in which no two terms look the same, and one in which two do. *)
From Coq Require Import ZArith QArith Qreals Reals Lra Lia List.
From Coquelicot Require Import Coquelicot.
From Verif Require Import Outcome CoulombWaveModel CoulombExactModel NewmarkSpec AsymptoticSpec IrregularSpec IrregularProofs IrregularCode.
Open Scope R_scope.

(** * eta = 1 and rho = 12 *)
Definition multiplierQ (k : nat) : Q * Q :=
  let n := inject_Z (Z.of_nat k) in (Qred ((2 * n + 1) / (2 * (n + 1))), Qred ((1 - n * (n + 1)) / (2 * (n + 1))))%Q.
Fixpoint expansionQ (k : nat) : Q * Q :=
  match k with
  | O => (1%Q, 0%Q)
  | S k => let (a, b) := multiplierQ k in let (s, t) := expansionQ k in (Qred (a * s - b * t), Qred (a * t + b * s))%Q
  end.
Definition both (p : Q * Q) : R * R := (Q2R (fst p), Q2R (snd p)).
Lemma red q : Q2R (Qred q) = Q2R q.
Proof. apply Qeq_eqR, Qred_correct. Qed.
Lemma Q2R_Z z : Q2R (inject_Z z) = IZR z.
Proof. unfold Q2R, inject_Z. cbn [Qnum Qden]. field. Qed.
Lemma Q2R_1 : Q2R 1 = 1.
Proof. exact (Q2R_Z 1). Qed.
Lemma Q2R_2 : Q2R 2 = 2.
Proof. exact (Q2R_Z 2). Qed.
Lemma multiplier_both k : multiplier 1 k = both (multiplierQ k).
Proof.
  unfold multiplier, both, multiplierQ. cbn [fst snd]. rewrite !red. pose proof (pos_INR k) as P.
  assert (N : ~ (2 * (inject_Z (Z.of_nat k) + 1) == 0)%Q) by (unfold Qeq; cbn [Qnum Qden Qmult Qplus inject_Z]; nia).
  rewrite !Q2R_div by exact N. rewrite Q2R_minus, !Q2R_mult, !Q2R_plus, ?Q2R_mult, !Q2R_1, !Q2R_2, !Q2R_Z, <- INR_IZR_INZ. f_equal; field; lra.
Qed.
Lemma expansion_both k : expansion 1 k = both (expansionQ k).
Proof.
  induction k as [|k IH]; [unfold both; cbn [expansion expansionQ fst snd]; rewrite Q2R_1; f_equal; unfold Q2R; cbn; lra|].
  cbn [expansion expansionQ]. rewrite multiplier_both, IH. unfold both. destruct (multiplierQ k) as [x y]. destruct (expansionQ k) as [s t]. cbn [fst snd]. rewrite !red, Q2R_minus, Q2R_plus, !Q2R_mult. reflexivity.
Qed.
(** 12 c_k - c_(k+1) is not small compared with 12 c_k *)
Definition differs (k : nat) : bool :=
  let p := fst (expansionQ k) in let q := fst (expansionQ (S k)) in Qle_bool ((12 * p) * (12 * p)) (100 * ((12 * p - q) * (12 * p - q))).
Lemma all_differ : forallb differs (seq 0 18) = true.
Proof. vm_compute. reflexivity. Qed.
Lemma not_repeating k : (k < 18)%nat -> ~ repeating 1 12 k.
Proof.
  intros Hk. pose proof all_differ as A. rewrite forallb_forall in A. specialize (A k ltac:(apply in_seq; lia)). unfold differs in A. apply Qle_bool_iff, Qle_Rle in A.
  unfold repeating. rewrite !expansion_both. unfold both. cbn [fst]. set (p := fst (expansionQ k)) in *. set (q := fst (expansionQ (S k))) in *. rewrite !Q2R_mult, Q2R_minus, !Q2R_mult in A. 
  change (Q2R 12) with (Q2R (inject_Z 12)) in A. change (Q2R 100) with (Q2R (inject_Z 100)) in A. rewrite !Q2R_Z in A. generalize dependent (Q2R p). generalize dependent (Q2R q). clear p q. intros q p A.
  assert (P : 0 < / 12 ^ S k) by (apply Rinv_0_lt_compat, pow_lt; lra). replace (p / 12 ^ k - q / 12 ^ S k) with ((12 * p - q) * / 12 ^ S k) by (cbn [pow]; field; apply pow_nonzero; lra). replace (p / 12 ^ k) with (12 * p * / 12 ^ S k) by (cbn [pow]; field; apply pow_nonzero; lra).
  rewrite (Rabs_mult (12 * p - q)), (Rabs_mult (12 * p)), (Rabs_pos_eq (/ 12 ^ S k)) by lra. intros H.
  assert (L : Rabs (12 * p - q) < / 10 ^ 16 * Rabs (12 * p)) by (apply (Rmult_lt_reg_r (/ 12 ^ S k)); [exact P | lra]).
  assert (B : Rabs (12 * p) ^ 2 <= 100 * Rabs (12 * p - q) ^ 2) by (rewrite !pow2_abs; lra). pose proof (Rabs_pos (12 * p - q)). pose proof (Rabs_pos (12 * p)). set (x := Rabs (12 * p)) in *. set (y := Rabs (12 * p - q)) in *.
  assert (Y : y < x / 100) by lra. nra.
Qed.

(** * At some eta between 2 and 9/4, with rho = 2 eta + 10, the third and the fourth term have the same real part *)
Lemma look_the_same : exists eta, 2 <= eta <= 9 / 4 /\ repeating eta (2 * eta + 10) 2.
Proof.
  set (d := fun e : R => (2 * e + 10) * (e ^ 2 * (5 - e ^ 2) / 8) - (5 * e / 6 * (e ^ 2 * (5 - e ^ 2) / 8) - (e ^ 2 - 6) / 6 * (e ^ 3 / 2 - e / 4))).
  destruct (Ranalysis5.IVT_interv (fun e => - d e) 2 (9 / 4)) as (e & He & E).
  - intros x Hx. apply continuity_pt_filterlim, (ex_derive_continuous (fun e => - d e)). unfold d. auto_derive. exact Logic.I.
  - lra.
  - unfold d. lra.
  - unfold d. lra.
  - exists e. split; [exact He|]. assert (D : d e = 0) by lra. unfold d in D. unfold repeating.
    assert (C2 : fst (expansion e 2) = e ^ 2 * (5 - e ^ 2) / 8) by (cbn [expansion]; unfold multiplier; cbn [INR fst snd]; field).
    assert (C3 : fst (expansion e 3) = 5 * e / 6 * (e ^ 2 * (5 - e ^ 2) / 8) - (e ^ 2 - 6) / 6 * (e ^ 3 / 2 - e / 4)) by (cbn [expansion]; unfold multiplier; cbn [INR fst snd]; field).
    rewrite C2, C3. set (c := e ^ 2 * (5 - e ^ 2) / 8) in *. set (c' := _ - (e ^ 2 - 6) / 6 * _) in *. assert (X : c' = (2 * e + 10) * c) by lra.
    assert (P : 0 < (2 * e + 10) ^ 2) by (apply pow_lt; lra). replace (c / (2 * e + 10) ^ 2 - c' / (2 * e + 10) ^ 3) with 0 by (rewrite X; field; lra). rewrite Rabs_R0. apply Rmult_lt_0_compat; [apply Rinv_0_lt_compat; lra|]. apply Rabs_pos_lt. unfold Rdiv. apply Rmult_integral_contrapositive. split; [|apply Rinv_neq_0_compat; lra].
    intros Z. rewrite Z in X. rewrite Rmult_0_r in X. assert (E2 : 5 - e ^ 2 = 0) by (unfold c in Z; apply (Rmult_eq_reg_l (e ^ 2 / 8)); [lra | pose proof (pow_lt e 2 ltac:(lra)); lra]). unfold c' in X. assert (Q : e ^ 2 = 5) by lra. replace (e ^ 3) with (e * e ^ 2) in X by ring. rewrite Q in X. nra.
Qed.
Lemma at_12 : exists G G1 g g1, irregular 1 G G1 /\ omAsymptotic exact (Fin 12) (Fin 1) (sigma0_of exact (Fin 1)) = Ok (Fin g, Fin g1) /\ Rabs (g - G 12) <= / 10 ^ 7 /\ Rabs (g1 - G1 12) <= 2 / 10 ^ 7.
Proof.
  destruct (irregular_exists 1) as (G & G1 & I); [lra|]. destruct (far_asymptotic 1 12 G G1 ltac:(lra) ltac:(lra) I not_repeating) as (g & g1 & H). exists G, G1, g, g1. split; [exact I | exact H].
Qed.
