(** Property C90: the unresolved resonance cross sections in double arithmetic. *)
From Coq Require Import String List ZArith Reals Lra Lia Bool.
From Flocq Require Import Core.Core IEEE754.BinarySingleNaN.
From Verif Require Import Outcome UnresolvedModel UnresolvedSpec DoubleModel DoubleProofs RoundingModel RoundingProofs FluctuationRoundingModel FluctuationLiteralProofs
  FluctuationSpec BreitWignerRoundingSpec UnresolvedRoundingModel UnresolvedRoundingSpec UnresolvedRoundingProofs UnresolvedRoundingTheorems UnresolvedRoundingCases.
Open Scope R_scope.

(** The cross sections are finite, and those of the quadrature rules for the exact average neutron width
    up to a relative error of 1.2 10^-13. *)
Theorem C90_rules pi k a sf energy p sinphi x d : usable_parameters x d -> usable_channel pi k a sf energy p sinphi ->
  let Gn := average_width k a energy p x d in let Gg := B2R (a_capture x) in let Gf := B2R (a_fission x) in let Gx := B2R (a_competition x) in
  let rn := chi2_rule (d_elastic d) in let rf := width_rule Gf (Nat.max 1 (d_fission d)) in let rx := width_rule Gx (Nat.max 1 (d_competition d)) in
  exists result, unresolved64 pi k a sf energy p sinphi x d = Ok result /\
    cross_sections 1.2e-13 0 pi k a sf energy p sinphi x d
      (Gn * I_elastic Gn Gg Gf Gx rn rf rx) (Gg * I_capture Gn Gg Gf Gx rn rf rx) (Gf * I_fission Gn Gg Gf Gx rn rf rx) result.
Proof. exact (cross_sections_rounded pi k a sf energy p sinphi x d). Qed.
Print Assumptions C90_rules.

(** They are those of averages over chi-square distributed widths up to the errors of the rules and the
    roundings. *)
Theorem C90_averages pi k a sf energy p sinphi x d : usable_parameters x d -> usable_channel pi k a sf energy p sinphi ->
  let Gn := average_width k a energy p x d in let Gg := B2R (a_capture x) in let Gf := B2R (a_fission x) in let Gx := B2R (a_competition x) in
  let df := Nat.max 1 (d_fission d) in let dx := Nat.max 1 (d_competition d) in
  exists result e c f g, unresolved64 pi k a sf energy p sinphi x d = Ok result /\
    exact Gn Gg Gf Gx (d_elastic d) df dx e c f g /\ e + c + f + g = 1 /\
    cross_sections 1.3e-13 (1.01 * allowed_error Gf Gx (d_elastic d) df dx) pi k a sf energy p sinphi x d e c f result.
Proof. exact (cross_sections_accurate pi k a sf energy p sinphi x d). Qed.
Print Assumptions C90_averages.

(** An average fissile nuclide *)
Example C90_case : usable_parameters average_case (mkData 1 0 2 0)%nat /\
  usable_channel (literal (3, 0)%Z) (double_of 1) (double_of 1) (literal (1, -1)%Z) (double_of 4) (double_of 1) (literal (1, -1)%Z) /\
  B2R (a_fission average_case) = / 4 /\
  exists el ca fi, unresolved64 (literal (3, 0)%Z) (double_of 1) (double_of 1) (literal (1, -1)%Z) (double_of 4) (double_of 1) (literal (1, -1)%Z) average_case (mkData 1 0 2 0)%nat = Ok (el, ca, Some fi).
Proof.
  destruct average_usable as (UP & UC & VF).
  split; [exact UP|]. split; [exact UC|]. split; [exact VF|].
  destruct (C90_rules _ _ _ _ _ _ _ _ _ UP UC) as ([[el ca] [fi |]] & E & H); [exists el, ca, fi; exact E|]. destruct H as (_ & _ & H). lra.
Qed.
