(** C97: fluctuation integrals do not jump, except where a width starts from zero. *)
From Coq Require Import List ZArith Reals Lra Lia.
From Verif Require Import Outcome UnresolvedModel JumpProofs OpeningSpec OpeningProofs.
Open Scope R_scope.

(** With widths that change continuously, and a fission and a competitive width that are either not zero at this energy or zero everywhere, all integrals are given and do not jump *)
Theorem C97_steady_partial : forall d gn gg gf gx E, (1 <= d_elastic d <= 4)%nat ->
  continuity_pt gn E -> continuity_pt gg E -> continuity_pt gf E -> continuity_pt gx E ->
  (forall e, 0 < gn e /\ 0 <= gg e /\ 0 <= gf e /\ 0 <= gx e) ->
  (gf E <> 0 /\ (d_fission d <= 4)%nat \/ forall e, gf e = 0) -> (gx E <> 0 /\ (d_competition d <= 4)%nat \/ forall e, gx e = 0) ->
  steady_integrals (fun e => calculateFluctuationIntegrals (mkData (gn e) (gg e) (gf e) (gx e)) d) E.
Proof. intros d gn gg gf gx E H. exact (integrals_steady d H gn gg gf gx E). Qed.
Print Assumptions C97_steady_partial.
(** Where the fission width starts from zero, the integrals for elastic scattering and capture are multiplied by the sum of the weights *)
Theorem C97_fission_opens : forall d Gn Gg Gx, (1 <= d_elastic d <= 4)%nat -> 0 < Gn -> 0 <= Gg -> 0 <= Gx -> (d_fission d <= 4)%nat -> (Gx <> 0 -> (d_competition d <= 4)%nat) ->
  exists i, calculateFluctuationIntegrals (mkData Gn Gg 0 Gx) d = Ok (Some i) /\
  approaches (fun G => calculateFluctuationIntegrals (mkData Gn Gg G Gx) d) (rule_sum (Nat.max 1 (d_fission d)) * d_elastic i) (rule_sum (Nat.max 1 (d_fission d)) * d_capture i).
Proof. intros d Gn Gg Gx H. exact (fission_opens d H Gn Gg Gx). Qed.
Print Assumptions C97_fission_opens.
Theorem C97_competition_opens : forall d Gn Gg Gf, (1 <= d_elastic d <= 4)%nat -> 0 < Gn -> 0 <= Gg -> 0 <= Gf -> (Gf <> 0 -> (d_fission d <= 4)%nat) -> (d_competition d <= 4)%nat ->
  exists i, calculateFluctuationIntegrals (mkData Gn Gg Gf 0) d = Ok (Some i) /\
  approaches (fun G => calculateFluctuationIntegrals (mkData Gn Gg Gf G) d) (rule_sum (Nat.max 1 (d_competition d)) * d_elastic i) (rule_sum (Nat.max 1 (d_competition d)) * d_capture i).
Proof. intros d Gn Gg Gf H. exact (competition_opens d H Gn Gg Gf). Qed.
Print Assumptions C97_competition_opens.
(** The integrals jump there, for all widths and all degrees of freedom *)
Theorem C97_jump_refuted : forall d Gn Gg, (1 <= d_elastic d <= 4)%nat -> 0 < Gn -> 0 <= Gg -> (d_fission d <= 4)%nat ->
  exists i, calculateFluctuationIntegrals (mkData Gn Gg 0 0) d = Ok (Some i) /\
  ~ approaches (fun G => calculateFluctuationIntegrals (mkData Gn Gg G 0) d) (d_elastic i) (d_capture i).
Proof. intros d Gn Gg H. exact (fission_jumps d H Gn Gg). Qed.
Print Assumptions C97_jump_refuted.

(** A neutron width that grows with the energy, fission with 4 degrees of freedom and no competition *)
Example case_steady : steady_integrals (fun e => calculateFluctuationIntegrals (mkData (1 + Rabs e) 2 (Rabs e) 0) (mkData 1 0 4 0)%nat) 3.
Proof.
  apply C97_steady_partial; cbn [d_elastic d_fission d_competition]; [lia | auto with cont | auto with cont | auto with cont | auto with cont | | |].
  - intros e. pose proof (Rabs_pos e). lra.
  - left. split; [rewrite Rabs_pos_eq; lra | lia].
  - right. reflexivity.
Qed.
(** Fission with 4 degrees of freedom opens: both integrals change by 0.024 % *)
Example case_opens : exists i, calculateFluctuationIntegrals (mkData 1 2 0 3) (mkData 1 0 4 1)%nat = Ok (Some i) /\
  approaches (fun G => calculateFluctuationIntegrals (mkData 1 2 G 3) (mkData 1 0 4 1)%nat) (1.00023789909630388 * d_elastic i) (1.00023789909630388 * d_capture i).
Proof. apply C97_fission_opens; cbn [d_elastic d_fission d_competition]; try lia; lra. Qed.
Example case_competition : exists i, calculateFluctuationIntegrals (mkData 1 2 3 0) (mkData 2 0 4 2)%nat = Ok (Some i) /\
  approaches (fun G => calculateFluctuationIntegrals (mkData 1 2 3 G) (mkData 2 0 4 2)%nat) (0.99991003163800000000000000000027453830 * d_elastic i) (0.99991003163800000000000000000027453830 * d_capture i).
Proof. apply C97_competition_opens; cbn [d_elastic d_fission d_competition]; try lia; lra. Qed.
Example case_jump : exists i, calculateFluctuationIntegrals (mkData 1 2 0 0) (mkData 1 0 4 0)%nat = Ok (Some i) /\
  ~ approaches (fun G => calculateFluctuationIntegrals (mkData 1 2 G 0) (mkData 1 0 4 0)%nat) (d_elastic i) (d_capture i).
Proof. apply C97_jump_refuted; cbn [d_elastic d_fission d_competition]; try lia; lra. Qed.
