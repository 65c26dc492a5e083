(** The doubles of the tables are the decimal numbers up to one rounding. *)
From Coq Require Import String List ZArith Reals Lra Lia Bool Psatz.
From Flocq Require Import Core.Core Relative IEEE754.BinarySingleNaN.
From Verif Require Import Outcome QuantumModel UnresolvedModel UnresolvedSpec
  DoubleModel DoubleProofs RoundingModel RoundingProofs FluctuationRoundingModel FluctuationRoundingSpec FluctuationRoundingProofs RuleErrorProofs.
Import ListNotations.
Open Scope R_scope.

Definition test_literal (p : Z * Z) (num den lo hi : Z) : bool :=
  let (m, e) := p in let s := (2 ^ (- e))%Z in
  ((0 <? m) && (m <? 2 ^ 53) && (-1000 <=? e) && (e <=? 0) && (0 <? num) && (0 <? den) && (lo <=? 0) && (0 <=? hi) &&
   (den <=? num * 2 ^ (- lo)) && (num <=? den * 2 ^ hi) && (Z.abs (m * den - num * s) * 2 ^ 53 <=? num * s))%Z.
Lemma power_Z e : (0 <= e)%Z -> IZR (2 ^ e) = bpow radix2 e.
Proof. intros H. exact (IZR_Zpower radix2 e H). Qed.
Lemma literal_value m e : (0 < m < 2 ^ 53)%Z -> (-1000 <= e <= 0)%Z -> is_finite (literal (m, e)) = true /\ B2R (literal (m, e)) = IZR m * bpow radix2 e.
Proof.
  intros Hm He. pose proof (binary_normalize_correct 53 1024 eq_refl eq_refl mode_NE m e false) as C. cbv zeta in C. fold fexp64 in C. fold rnd in C.
  assert (E : rnd (F2R (Float radix2 m e)) = F2R (Float radix2 m e)).
  { apply round_generic; [apply valid_rnd_N|]. apply (generic_format_FLT radix2 (3 - 1024 - 53) 53). exists (Float radix2 m e); [reflexivity | cbn; rewrite Z.abs_eq; lia | cbn; lia]. }
  rewrite E in C. rewrite Rlt_bool_true in C.
  - destruct C as (C1 & C2 & _). split; [exact C2 | exact C1].
  - unfold F2R. cbn [Fnum Fexp]. rewrite Rabs_mult, (Rabs_pos_eq (bpow radix2 e)) by apply bpow_ge_0. rewrite Rabs_pos_eq by (apply IZR_le; lia).
    apply Rlt_trans with (bpow radix2 53 * bpow radix2 e).
    + apply Rmult_lt_compat_r; [apply bpow_gt_0|]. rewrite <- power_Z by lia. apply IZR_lt. lia.
    + rewrite <- bpow_plus. apply bpow_lt. lia.
Qed.
Lemma literal_near p num den lo hi : test_literal p num den lo hi = true -> near 1 lo hi (literal p) (IZR num / IZR den).
Proof.
  destruct p as [m e]. unfold test_literal. cbv zeta. set (s := (2 ^ (- e))%Z). intros H. repeat rewrite andb_true_iff in H.
  destruct H as ((((((((((H1 & H2) & H3) & H4) & H5) & H6) & H7) & H8) & H9) & H10) & H11).
  apply Z.ltb_lt in H1, H2, H5, H6. apply Z.leb_le in H3, H4, H7, H8, H9, H10, H11.
  destruct (literal_value m e) as [F V]; [lia | lia|]. assert (Pd : 0 < IZR den) by (apply IZR_lt; lia). assert (Pn : 0 < IZR num) by (apply IZR_lt; lia).
  split; [exact F|]. split.
  - apply IZR_le in H9, H10. rewrite mult_IZR, power_Z in H9 by lia. rewrite mult_IZR, power_Z in H10 by lia. split.
    + apply (Rmult_le_reg_r (IZR den)); [exact Pd|]. replace (IZR num / IZR den * IZR den) with (IZR num) by (field; lra).
      pose proof (bpow_gt_0 radix2 lo). assert (E1 : bpow radix2 lo * bpow radix2 (- lo) = 1) by (rewrite <- bpow_plus; replace (lo + - lo)%Z with 0%Z by lia; reflexivity). nra.
    + apply (Rmult_le_reg_r (IZR den)); [exact Pd|]. replace (IZR num / IZR den * IZR den) with (IZR num) by (field; lra). lra.
  - rewrite V. cbn [pow]. rewrite !Rmult_1_r.
    assert (Ps : 0 < IZR s) by (unfold s; rewrite power_Z by lia; apply bpow_gt_0).
    assert (Es : bpow radix2 e * IZR s = 1). { unfold s. rewrite power_Z by lia. rewrite <- bpow_plus. replace (e + - e)%Z with 0%Z by lia. reflexivity. }
    apply IZR_le in H11. rewrite mult_IZR, abs_IZR, minus_IZR, !mult_IZR, (power_Z 53) in H11 by lia.
    assert (K : Rabs (IZR m * IZR den - IZR num * IZR s) <= u * (IZR num * IZR s)).
    { apply (Rmult_le_reg_r (bpow radix2 53)); [apply bpow_gt_0|]. replace (u * (IZR num * IZR s) * bpow radix2 53) with (u * bpow radix2 53 * (IZR num * IZR s)) by ring.
      replace (u * bpow radix2 53) with 1 by (unfold u; rewrite <- bpow_plus; reflexivity). lra. }
    apply Rabs_le_inv in K. pose proof (bpow_gt_0 radix2 e).
    assert (Em : IZR m * bpow radix2 e = IZR m * IZR den * (bpow radix2 e / IZR den)) by (field; lra).
    assert (En : IZR num / IZR den = IZR num * IZR s * (bpow radix2 e / IZR den)). { transitivity (IZR num * (bpow radix2 e * IZR s) / IZR den); [rewrite Es; field; lra | field; lra]. }
    assert (Pc : 0 < bpow radix2 e / IZR den) by (apply Rdiv_lt_0_compat; assumption).
    rewrite Em, En. set (c := bpow radix2 e / IZR den) in *. set (a := IZR m * IZR den) in *. set (b := IZR num * IZR s) in *. split.
    + replace (b * c * (1 - u)) with (b * (1 - u) * c) by ring. apply Rmult_le_compat_r; lra.
    + replace (b * c * (1 + u)) with (b * (1 + u) * c) by ring. apply Rmult_le_compat_r; lra.
Qed.

Definition reads64 (n : nat) (i : nat) (p : R * R) : Prop := exists w q,
  entry64 weight_literals i (unsigned_pred n) = Ok w /\ near0 1 (-103) 0 w (fst p) /\
  entry64 node_literals i (unsigned_pred n) = Ok q /\ near 1 (-10) 7 q (snd p).
Lemma read_near n i m e m' e' zw zx : entry64 weight_literals i (unsigned_pred n) = Ok (literal (m, e)) -> entry64 node_literals i (unsigned_pred n) = Ok (literal (m', e')) ->
  ((m =? 0) && (zw =? 0) || test_literal (m, e) zw unit_w (-103) 0)%Z = true -> test_literal (m', e') zx unit_x (-10) 7 = true ->
  reads64 n i (IZR zw / IZR unit_w, IZR zx / IZR unit_x).
Proof.
  intros A B T1 T2. exists (literal (m, e)), (literal (m', e')). split; [exact A|]. cbn [fst snd]. split; [|split; [exact B | apply literal_near; exact T2]].
  apply orb_true_iff in T1 as [T | T].
  - apply andb_true_iff in T as [T1 T3]. apply Z.eqb_eq in T1, T3. subst. left. unfold literal. cbn [fst snd].
    pose proof (binary_normalize_correct 53 1024 eq_refl eq_refl mode_NE 0 e false) as C. cbv zeta in C. fold fexp64 in C. fold rnd in C.
    assert (E : F2R (Float radix2 0 e) = 0) by (apply F2R_0). rewrite E in C. rewrite Rlt_bool_true in C by exact small_0. rewrite rnd_0 in C.
    destruct C as (C1 & C2 & _). split; [exact C2|]. split; [exact C1|]. unfold Rdiv. apply Rmult_0_l.
  - right. apply literal_near. exact T.
Qed.
Lemma tables64 n : (1 <= n <= 4)%nat -> Forall2 (reads64 n) ten (chi2_rule n).
Proof.
  intros Hn. rewrite rules_integer by exact Hn. unfold rule_of. assert (E : (n = 1 \/ n = 2 \/ n = 3 \/ n = 4)%nat) by lia.
  destruct E as [-> | [-> | [-> | ->]]]; unfold zrule, ten; cbn [seq map fst snd];
    repeat (apply Forall2_cons; [eapply read_near; [reflexivity | reflexivity | vm_compute; reflexivity | vm_compute; reflexivity]|]); apply Forall2_nil.
Qed.
