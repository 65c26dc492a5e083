(** Concrete resonances for the Breit-Wigner formulas in double arithmetic. *)
From Coq Require Import String List ZArith Reals Lra Lia Bool.
From Flocq Require Import Core.Core IEEE754.BinarySingleNaN.
From Verif Require Import Outcome UnresolvedModel DoubleModel RoundingModel FluctuationRoundingModel FluctuationLiteralProofs
  BreitWignerRoundingModel BreitWignerRoundingSpec BreitWignerRoundingProofs BreitWignerRoundingSystem.
Import ListNotations.
Open Scope R_scope.

Definition test_within (n m e : Z) : bool :=
  ((0 <=? n) && (0 <? m) && (m <? 2 ^ 53) && (-1000 <=? e) && (e <=? 0) && (2 ^ (- e) <=? m * 2 ^ n) && (m <=? 2 ^ n * 2 ^ (- e)))%Z.
Lemma literal_within n m e : test_within n m e = true -> positive_within n (literal (m, e)).
Proof.
  unfold test_within. intros H. repeat rewrite andb_true_iff in H. destruct H as ((((((H1 & H2) & H3) & H4) & H5) & H6) & H7).
  apply Z.ltb_lt in H2, H3. apply Z.leb_le in H1, H4, H5, H6, H7. destruct (literal_value m e ltac:(lia) ltac:(lia)) as [F V]. split; [exact F|]. rewrite V.
  apply IZR_le in H6, H7. rewrite mult_IZR, !power_Z in H6 by lia. rewrite mult_IZR, !power_Z in H7 by lia.
  assert (E : bpow radix2 (- e) * bpow radix2 e = 1) by (rewrite <- bpow_plus; replace (- e + e)%Z with 0%Z by lia; reflexivity).
  assert (E' : bpow radix2 (- n) * bpow radix2 n = 1) by (rewrite <- bpow_plus; replace (- n + n)%Z with 0%Z by lia; reflexivity).
  pose proof (bpow_gt_0 radix2 e) as B. pose proof (bpow_gt_0 radix2 n) as B'. split.
  - apply (Rmult_le_reg_r (bpow radix2 n)); [exact B'|]. rewrite E'. apply Rle_trans with (bpow radix2 (- e) * bpow radix2 e); [lra|].
    replace (IZR m * bpow radix2 e * bpow radix2 n) with (IZR m * bpow radix2 n * bpow radix2 e) by ring. apply Rmult_le_compat_r; lra.
  - apply Rle_trans with (bpow radix2 n * bpow radix2 (- e) * bpow radix2 e); [apply Rmult_le_compat_r; lra|]. rewrite Rmult_assoc, E. lra.
Qed.
Lemma zero_is_zero : is_zero (double_of 0).
Proof. split; [reflexivity | reflexivity]. Qed.
Lemma one_literal : double_of 1 = literal (1, 0)%Z.
Proof. reflexivity. Qed.

Ltac decide_literal := apply literal_within; vm_compute; reflexivity.
Ltac value m e := rewrite (proj2 (literal_value m e ltac:(lia) ltac:(lia))).
(** /repo/src/resonanceReconstruction.hpp:65, pi = 3.141592653589793 *)
Definition pi64 : double := literal (7074237752028440, -51)%Z.
Lemma pi_within : positive_within 2 pi64.
Proof. decide_literal. Qed.
Lemma pi_value : B2R pi64 = 7074237752028440 * bpow radix2 (-51).
Proof. unfold pi64. value 7074237752028440%Z (-51)%Z. reflexivity. Qed.
Lemma half_within : positive_within 80 (literal (1, -1)%Z).
Proof. decide_literal. Qed.

(** Two resonances at 1 and 2 eV, the second with fission, seen from 1.5 eV *)
Definition first_case : given64 :=
  mkGiven64 (literal (1, 0)%Z) (literal (1, -3)%Z) (literal (1, -3)%Z) (double_of 0) (double_of 0) (literal (1, 0)%Z) (literal (1, 0)%Z) (double_of 0).
Definition second_case : given64 :=
  mkGiven64 (literal (2, 0)%Z) (literal (1, -3)%Z) (literal (1, -3)%Z) (literal (1, -2)%Z) (double_of 0) (literal (1, 0)%Z) (literal (1, 0)%Z) (double_of 0).
Definition energy_case : double := literal (3, -1)%Z.
Lemma within_positive n x : positive_within n x -> within n x.
Proof. intros [F B]. right. split; [exact F|]. rewrite Rabs_pos_eq; [exact B|]. pose proof (bpow_gt_0 radix2 (- n)). lra. Qed.
Lemma within_opp n x : positive_within n x -> within n (opp x).
Proof. intros [F B]. right. unfold opp. rewrite is_finite_Bopp, B2R_Bopp, Rabs_Ropp. split; [exact F|]. rewrite Rabs_pos_eq; [exact B|]. pose proof (bpow_gt_0 radix2 (- n)). lra. Qed.
Lemma zero_value : B2R (double_of 0) = 0.
Proof. reflexivity. Qed.
Ltac values := repeat match goal with |- context [B2R (literal (?m, ?e))] => rewrite (proj2 (literal_value m e ltac:(lia) ltac:(lia))) end; rewrite ?zero_value;
  change (bpow radix2 0) with 1; change (bpow radix2 (-1)) with (/ 2); change (bpow radix2 (-2)) with (/ 4); change (bpow radix2 (-3)) with (/ 8).
Ltac usables := repeat match goal with
  | |- _ /\ _ => split
  | |- is_zero (double_of 0) \/ _ => left; exact zero_is_zero
  | |- is_zero (literal _) \/ _ => right; decide_literal
  | |- within _ (double_of 0) => left; exact zero_is_zero
  | |- within _ (literal _) => apply within_positive; decide_literal
  | |- positive_within _ (literal _) => decide_literal
  end.
Lemma usable_first : usable 40 80 first_case /\ usable 30 35 first_case.
Proof. unfold usable, first_case. cbn [g_energy g_elastic g_capture g_fission g_competition g_P g_Q g_S]. usables; values; lra. Qed.
Lemma usable_second : usable 40 80 second_case /\ usable 30 35 second_case.
Proof. unfold usable, second_case. cbn [g_energy g_elastic g_capture g_fission g_competition g_P g_Q g_S]. usables; values; lra. Qed.
Lemma usable_energy_case : usable_energy 80 energy_case (literal (1, 0)%Z) (literal (1, 0)%Z) (double_of 0) /\ usable_energy 35 energy_case (literal (1, 0)%Z) (literal (1, 0)%Z) (double_of 0).
Proof. unfold usable_energy, energy_case. usables. Qed.
(** Every term of the bounds is computed for these two. *)
Lemma case_capture : bw_factor pi64 (literal (1, 0)%Z) (literal (1, 0)%Z) *
  total_of (fun g => bw_reaction (B2R (g_capture g)) (neutron_width (literal (1, 0)%Z) g) (total_width (literal (1, 0)%Z) (literal (1, 0)%Z) g) (distance energy_case (double_of 0) g)) [first_case; second_case]
  = B2R pi64 * (37 / 340).
Proof.
  unfold bw_factor, total_of, bw_reaction, total_width, neutron_width, distance, displacement, lorentz, first_case, second_case, energy_case. cbn [g_energy g_elastic g_capture g_fission g_competition g_P g_Q g_S].
  set (x := B2R pi64). values. field.
Qed.
Lemma case_distance g : In g [first_case; second_case] ->
  9 * bpow radix2 (-53) * (Rabs (B2R energy_case) + Rabs (B2R (g_energy g)) + Rabs (displacement (double_of 0) g)) <= bpow radix2 (-45) * total_width (literal (1, 0)%Z) (literal (1, 0)%Z) g.
Proof.
  replace (bpow radix2 (-45)) with (256 * bpow radix2 (-53)) by (change 256 with (bpow radix2 8); rewrite <- bpow_plus; reflexivity). pose proof (bpow_gt_0 radix2 (-53)) as B.
  intros [<- | [<- | []]]; unfold displacement, total_width, neutron_width, energy_case, first_case, second_case; cbn [g_energy g_elastic g_capture g_fission g_competition g_P g_Q g_S]; values;
    rewrite ?Rabs_pos_eq by lra; nra.
Qed.

(** A resonance at 131072 eV of width 2^-10, whose displacement of 2^-37 is lost *)
Definition lost_case : given64 :=
  mkGiven64 (literal (131072, 0)%Z) (literal (1, -11)%Z) (literal (1, -11)%Z) (double_of 0) (double_of 0) (literal (1, 0)%Z) (literal (1, 0)%Z) (opp (literal (1, 0)%Z)).
Definition lost_energy : double := literal (268435457, -11)%Z.
Definition lost_shift : double := opp (literal (33554433, -25)%Z).
Lemma usable_lost : usable 40 80 lost_case /\ usable_energy 80 lost_energy (literal (1, 0)%Z) (literal (1, 0)%Z) lost_shift.
Proof.
  unfold usable, usable_energy, lost_case. cbn [g_energy g_elastic g_capture g_fission g_competition g_P g_Q g_S]. unfold lost_energy, lost_shift.
  repeat match goal with |- within _ (opp _) => apply within_opp; decide_literal | |- _ /\ _ => split end; usables.
  rewrite (proj2 (literal_value 1 (-11) ltac:(lia) ltac:(lia))), zero_value. pose proof (bpow_gt_0 radix2 (-11)). lra.
Qed.
Lemma lost_computed : snd (fst (slbw64 pi64 (literal (1, 0)%Z) (literal (1, 0)%Z) lost_energy (literal (1, 0)%Z) (literal (1, 0)%Z) lost_shift (literal (1, -1)%Z) (literal (1, -1)%Z) [makeResonance64 lost_case])) = literal (7074237752028440, -52)%Z.
Proof. apply B2SF_inj. vm_compute. reflexivity. Qed.
Lemma lost_exact : total_of (fun g => bw_reaction (B2R (g_capture g)) (neutron_width (literal (1, 0)%Z) g) (total_width (literal (1, 0)%Z) (literal (1, 0)%Z) g) (distance lost_energy lost_shift g)) [lost_case]
  = / 2 / (1 - / 67108864 + / 9007199254740992).
Proof.
  unfold total_of, bw_reaction, total_width, neutron_width, distance, displacement, lorentz, lost_case, lost_energy, lost_shift. cbn [g_energy g_elastic g_capture g_fission g_competition g_P g_Q g_S].
  unfold opp. rewrite !B2R_Bopp.
  repeat match goal with |- context [B2R (literal (?m, ?e))] => rewrite (proj2 (literal_value m e ltac:(lia) ltac:(lia))) end; rewrite ?zero_value.
  change (bpow radix2 0) with 1. change (bpow radix2 (-11)) with (/ 2048). change (bpow radix2 (-25)) with (/ 33554432). field.
Qed.
Lemma relative_refuted : exists energy p q s sinphi sintwophi k sf g,
  usable 40 80 g /\ usable_energy 80 energy p q s /\ within 80 sinphi /\ within 80 sintwophi /\ Rabs (B2R sinphi) <= 1 /\ Rabs (B2R sintwophi) <= 1 /\
  positive_within 2 pi64 /\ positive_within 30 k /\ positive_within 20 sf /\
  let '(_, ca, _) := slbw64 pi64 k sf energy p q s sinphi sintwophi [makeResonance64 g] in
  let exact := bw_factor pi64 k sf * total_of (fun g => bw_reaction (B2R (g_capture g)) (neutron_width p g) (total_width p q g) (distance energy s g)) [g] in
  1e-8 * exact < Rabs (B2R ca - exact).
Proof.
  exists lost_energy, (literal (1, 0)%Z), (literal (1, 0)%Z), lost_shift, (literal (1, -1)%Z), (literal (1, -1)%Z), (literal (1, 0)%Z), (literal (1, 0)%Z), lost_case.
  destruct usable_lost as [U1 U2]. split; [exact U1|]. split; [exact U2|]. split; [apply within_positive; decide_literal|]. split; [apply within_positive; decide_literal|].
  split; [values; rewrite Rabs_pos_eq; lra|]. split; [values; rewrite Rabs_pos_eq; lra|]. split; [exact pi_within|]. split; [decide_literal|]. split; [decide_literal|].
  pose proof lost_computed as C. destruct (slbw64 _ _ _ _ _ _ _ _ _ _) as [[el ca] fi]. cbn [fst snd] in C. subst ca. cbv zeta. rewrite lost_exact. unfold bw_factor.
  rewrite (proj2 (literal_value 7074237752028440 (-52) ltac:(lia) ltac:(lia))), pi_value.
  replace (bpow radix2 (-52)) with (/ 2 * bpow radix2 (-51)) by (change (/ 2) with (bpow radix2 (-1)); rewrite <- bpow_plus; reflexivity).
  rewrite (proj2 (literal_value 1 0 ltac:(lia) ltac:(lia))). change (bpow radix2 0) with 1.
  pose proof (bpow_gt_0 radix2 (-51)) as B. set (b := bpow radix2 (-51)) in *. set (c := 7074237752028440 * b). assert (Pc : 0 < c) by (unfold c; lra).
  replace (7074237752028440 * (/ 2 * b)) with (c * / 2) by (unfold c; ring). set (h := 1 - / 67108864 + / 9007199254740992). assert (Hh : 0 < h < 1 - 1.4e-8) by (unfold h; lra).
  replace (c / (1 * 1 * (1 * 1)) * (1 * 1) * (/ 2 / h)) with (c * / 2 * / h) by (field; lra).
  assert (P : 0 < / h) by (apply Rinv_0_lt_compat; lra). assert (E : h * / h = 1) by (field; lra).
  replace (c * / 2 - c * / 2 * / h) with (- (c * / 2 * / h * (1 - h))) by (field; lra).
  rewrite Rabs_Ropp, Rabs_pos_eq; [|apply Rmult_le_pos; [|lra]; apply Rmult_le_pos; lra].
  rewrite Rmult_comm. apply Rmult_lt_compat_l; [|lra]. apply Rmult_lt_0_compat; lra.
Qed.
