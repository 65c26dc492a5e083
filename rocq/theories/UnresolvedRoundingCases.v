(** A case for property C90. *)
From Coq Require Import String List ZArith Reals Lra Lia Bool.
From Flocq Require Import Core.Core IEEE754.BinarySingleNaN.
From Verif Require Import Outcome UnresolvedModel UnresolvedSpec DoubleModel DoubleProofs RoundingModel RoundingProofs FluctuationRoundingModel FluctuationLiteralProofs
  FluctuationSpec BreitWignerRoundingSpec UnresolvedRoundingModel UnresolvedRoundingSpec UnresolvedRoundingProofs UnresolvedRoundingTheorems.
Open Scope R_scope.

(** An average fissile nuclide at 4 eV: level spacing 2 eV, reduced neutron width 2^-10 eV^1/2, capture
    width 2^-5 eV, fission width 1/4 eV with two degrees of freedom *)
Definition average_case : parameters64 := mkParameters64 (double_of 2) (literal (1, -10)%Z) (literal (1, -5)%Z) (literal (1, -2)%Z) (double_of 0).
Lemma literal_within m e n : (1 <= m <= 65536)%Z -> (-n <= e)%Z -> (16 + e <= n)%Z -> (-900 <= e)%Z -> (e <= 0)%Z -> positive_within n (literal (m, e)).
Proof.
  intros M L1 L2 L3 L4. destruct (literal_value m e) as [F V]; [lia | lia |]. split; [exact F|]. rewrite V. assert (1 <= IZR m <= 65536) by (split; apply IZR_le; lia). pose proof (bpow_gt_0 radix2 e). split.
  - apply Rle_trans with (bpow radix2 e); [apply bpow_le; lia | rewrite <- (Rmult_1_l (bpow radix2 e)) at 1; apply Rmult_le_compat_r; lra].
  - apply Rle_trans with (bpow radix2 (16 + e)); [|apply bpow_le; lia]. rewrite bpow_plus. change (bpow radix2 16) with 65536. apply Rmult_le_compat_r; lra.
Qed.
Lemma whole_within m n : (1 <= m <= 65536)%Z -> (16 <= n)%Z -> positive_within n (double_of m).
Proof. intros M L. exact (literal_within m 0 n M ltac:(lia) ltac:(lia) ltac:(lia) ltac:(lia)). Qed.
Lemma average_usable : usable_parameters average_case (mkData 1 0 2 0)%nat /\
  usable_channel (literal (3, 0)%Z) (double_of 1) (double_of 1) (literal (1, -1)%Z) (double_of 4) (double_of 1) (literal (1, -1)%Z) /\
  B2R (a_fission average_case) = / 4.
Proof.
  assert (UP : usable_parameters average_case (mkData 1 0 2 0)%nat).
  { unfold usable_parameters, average_case. cbn [a_spacing a_elastic a_capture a_fission a_competition d_elastic d_fission d_competition].
    split; [apply whole_within; lia|]. split; [apply literal_within; lia|]. split; [right; apply literal_within; lia|]. split; [right; apply literal_within; lia|].
    split; [left; split; reflexivity|]. split; [lia|]. split; intros _; lia. }
  assert (Pi : positive_within 10 (literal (3, 0)%Z)).
  { destruct (literal_value 3 0) as [F V]; [lia | lia |]. split; [exact F|]. rewrite V. cbn. lra. }
  assert (UC : usable_channel (literal (3, 0)%Z) (double_of 1) (double_of 1) (literal (1, -1)%Z) (double_of 4) (double_of 1) (literal (1, -1)%Z)).
  { split; [exact Pi|]. split; [apply whole_within; lia|]. split; [apply whole_within; lia|]. split; [apply literal_within; lia|]. split; [apply whole_within; lia|]. split; [apply whole_within; lia|].
    destruct (literal_within 1 (-1) 80) as [F B]; try lia. right. split; [exact F|]. rewrite Rabs_pos_eq; [exact B|]. apply Rle_trans with (2 := proj1 B), bpow_ge_0. }
  assert (VF : B2R (a_fission average_case) = / 4) by (destruct (literal_value 1 (-2)) as [_ V]; [lia | lia |]; cbn [average_case a_fission]; rewrite V; cbn; lra).
  split; [exact UP|]. split; [exact UC | exact VF].
Qed.
