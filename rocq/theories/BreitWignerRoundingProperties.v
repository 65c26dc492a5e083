(** Property C88: Breit-Wigner cross sections in double arithmetic. *)
From Coq Require Import String List ZArith Reals Lra Lia Bool.
From Flocq Require Import Core.Core IEEE754.BinarySingleNaN.
From Verif Require Import Outcome UnresolvedModel DoubleModel RoundingModel FluctuationRoundingModel FluctuationLiteralProofs
  BreitWignerRoundingModel BreitWignerRoundingSpec BreitWignerRoundingSystem BreitWignerRoundingCases.
Import ListNotations.
Open Scope R_scope.

(** Single level: the results are finite, and up to a few roundings they are the cross sections of
    resonances at slightly different distances. *)
Theorem C88_single_level energy p q s sinphi sintwophi pi k sf gs :
  Forall (usable 40 80) gs -> usable_energy 80 energy p q s -> within 80 sinphi -> within 80 sintwophi ->
  Rabs (B2R sinphi) <= 1 -> Rabs (B2R sintwophi) <= 1 ->
  positive_within 2 pi -> positive_within 30 k -> positive_within 20 sf -> (Z.of_nat (length gs) <= 2 ^ 40)%Z ->
  exists ds, Forall2 (displaced energy s) gs ds /\
    single_level p q sinphi sintwophi pi k sf (combine gs ds) (slbw64 pi k sf energy p q s sinphi sintwophi (map makeResonance64 gs)).
Proof. exact (slbw_rounded energy p q s sinphi sintwophi pi k sf gs). Qed.
Print Assumptions C88_single_level.

(** Multi level: also the interference of all pairs, with the same distances *)
Theorem C88_multi_level energy p q s sinphi sintwophi pi k sf gs :
  Forall (usable 30 35) gs -> usable_energy 35 energy p q s -> within 80 sinphi -> within 80 sintwophi ->
  Rabs (B2R sinphi) <= 1 -> Rabs (B2R sintwophi) <= 1 ->
  positive_within 2 pi -> positive_within 30 k -> positive_within 20 sf -> (Z.of_nat (length gs) <= 2 ^ 20)%Z ->
  exists ds, Forall2 (displaced energy s) gs ds /\
    single_level p q sinphi sintwophi pi k sf (combine gs ds) (slbw64 pi k sf energy p q s sinphi sintwophi (map makeResonance64 gs)) /\
    interference p q pi k sf (combine gs ds) (mlbw64 pi k sf energy p q s (map makeResonance64 gs)).
Proof. exact (mlbw_rounded energy p q s sinphi sintwophi pi k sf gs). Qed.
Print Assumptions C88_multi_level.

(** Capture and fission against the formulas with the exact distances: the relative error grows with
    the ratio of the energies to the total widths. *)
Theorem C88_reactions y energy p q s sinphi sintwophi pi k sf gs :
  Forall (usable 40 80) gs -> usable_energy 80 energy p q s -> within 80 sinphi -> within 80 sintwophi ->
  Rabs (B2R sinphi) <= 1 -> Rabs (B2R sintwophi) <= 1 ->
  positive_within 2 pi -> positive_within 30 k -> positive_within 20 sf -> (Z.of_nat (length gs) <= 2 ^ 40)%Z -> 0 <= y <= / 6 ->
  (forall g, In g gs -> 9 * bpow radix2 (-53) * (Rabs (B2R energy) + Rabs (B2R (g_energy g)) + Rabs (displacement s g)) <= y * total_width p q g) ->
  let '(_, ca, fi) := slbw64 pi k sf energy p q s sinphi sintwophi (map makeResonance64 gs) in
  let exact h := bw_factor pi k sf * total_of (fun g => bw_reaction (h g) (neutron_width p g) (total_width p q g) (distance energy s g)) gs in
  let error := 4 * (INR (length gs) + 37) * bpow radix2 (-53) + 5 * y in
  let c := exact (fun g => B2R (g_capture g)) in let f := exact (fun g => B2R (g_fission g)) in
  Rabs (B2R ca - c) <= error * c /\ match fi with Some fi => Rabs (B2R fi - f) <= error * f | None => f = 0 end.
Proof. exact (reactions_accurate y energy p q s sinphi sintwophi pi k sf gs). Qed.
Print Assumptions C88_reactions.

(** The relative error is not a few roundings in general: a resonance of width 2^-10 at 131072 eV *)
Theorem C88_relative_refuted : exists energy p q s sinphi sintwophi k sf g,
  usable 40 80 g /\ usable_energy 80 energy p q s /\ within 80 sinphi /\ within 80 sintwophi /\ Rabs (B2R sinphi) <= 1 /\ Rabs (B2R sintwophi) <= 1 /\
  positive_within 2 pi64 /\ positive_within 30 k /\ positive_within 20 sf /\
  let '(_, ca, _) := slbw64 pi64 k sf energy p q s sinphi sintwophi [makeResonance64 g] in
  let exact := bw_factor pi64 k sf * total_of (fun g => bw_reaction (B2R (g_capture g)) (neutron_width p g) (total_width p q g) (distance energy s g)) [g] in
  1e-8 * exact < Rabs (B2R ca - exact).
Proof. exact relative_refuted. Qed.
Print Assumptions C88_relative_refuted.

(** Two resonances at 1 and 2 eV seen from 1.5 eV: the capture cross section *)
Example C88_case :
  let '(_, ca, _) := slbw64 pi64 (literal (1, 0)%Z) (literal (1, 0)%Z) energy_case (literal (1, 0)%Z) (literal (1, 0)%Z) (double_of 0)
    (literal (1, -1)%Z) (literal (1, -1)%Z) (map makeResonance64 [first_case; second_case]) in
  Rabs (B2R ca - B2R pi64 * (37 / 340)) <= 1.8e-13 * (B2R pi64 * (37 / 340)).
Proof.
  assert (H1 : Rabs (B2R (literal (1, -1)%Z)) <= 1) by (values; rewrite Rabs_pos_eq; lra).
  pose proof (C88_reactions (bpow radix2 (-45)) energy_case (literal (1, 0)%Z) (literal (1, 0)%Z) (double_of 0) (literal (1, -1)%Z) (literal (1, -1)%Z) pi64 (literal (1, 0)%Z) (literal (1, 0)%Z) [first_case; second_case]
    (Forall_cons _ (proj1 usable_first) (Forall_cons _ (proj1 usable_second) (Forall_nil _))) (proj1 usable_energy_case) (within_positive _ _ half_within) (within_positive _ _ half_within) H1 H1 pi_within
    ltac:(decide_literal) ltac:(decide_literal) ltac:(cbn; lia)) as H.
  destruct (slbw64 _ _ _ _ _ _ _ _ _ _) as [[el ca] fi]. cbv beta zeta in H. rewrite case_capture in H. cbn [length INR] in H.
  assert (B : bpow radix2 (-53) < 1.2e-16) by (change (bpow radix2 (-53)) with (/ 9007199254740992); lra).
  assert (B' : bpow radix2 (-45) < 2.9e-14) by (change (bpow radix2 (-45)) with (/ 35184372088832); lra).
  destruct H as [H _]; [pose proof (bpow_gt_0 radix2 (-45)); lra | exact case_distance|]. apply Rle_trans with (1 := H). apply Rmult_le_compat_r; [|lra].
  apply Rmult_le_pos; [destruct pi_within as [_ [P _]]; apply Rle_trans with (2 := P); apply bpow_ge_0 | lra].
Qed.
(** The same two for the interference *)
Example C88_pair : exists ds, Forall2 (displaced energy_case (double_of 0)) [first_case; second_case] ds /\
  interference (literal (1, 0)%Z) (literal (1, 0)%Z) pi64 (literal (1, 0)%Z) (literal (1, 0)%Z) (combine [first_case; second_case] ds)
    (mlbw64 pi64 (literal (1, 0)%Z) (literal (1, 0)%Z) energy_case (literal (1, 0)%Z) (literal (1, 0)%Z) (double_of 0) (map makeResonance64 [first_case; second_case])).
Proof.
  assert (H1 : Rabs (B2R (literal (1, -1)%Z)) <= 1) by (values; rewrite Rabs_pos_eq; lra).
  destruct (C88_multi_level energy_case (literal (1, 0)%Z) (literal (1, 0)%Z) (double_of 0) (literal (1, -1)%Z) (literal (1, -1)%Z) pi64 (literal (1, 0)%Z) (literal (1, 0)%Z) [first_case; second_case]
    (Forall_cons _ (proj2 usable_first) (Forall_cons _ (proj2 usable_second) (Forall_nil _))) (proj2 usable_energy_case) (within_positive _ _ half_within) (within_positive _ _ half_within) H1 H1 pi_within
    ltac:(decide_literal) ltac:(decide_literal) ltac:(cbn; lia)) as (ds & D & _ & I).
  exists ds. exact (conj D I).
Qed.
