(** Property C87: the fluctuation integrals in double arithmetic. *)
From Coq Require Import String List ZArith Reals Lra Lia Bool.
From Flocq Require Import Core.Core IEEE754.BinarySingleNaN.
From Verif Require Import Outcome QuantumModel UnresolvedModel UnresolvedSpec
  DoubleModel RoundingModel RoundingProofs FluctuationRoundingModel FluctuationRoundingSpec FluctuationRoundingProofs FluctuationLiteralProofs FluctuationRoundingTheorems FluctuationSpec FluctuationRoundingSystem.
Import ListNotations.
Open Scope R_scope.

(** The tables: entry by entry the doubles are the decimal numbers, to one rounding. *)
Theorem C87_tables n : (1 <= n <= 4)%nat -> Forall2 (fun i p => exists w q,
    entry64 weight_literals i (Z.of_nat n - 1) = Ok w /\ is_finite w = true /\ Rabs (B2R w - fst p) <= bpow radix2 (-53) * fst p /\
    entry64 node_literals i (Z.of_nat n - 1) = Ok q /\ is_finite q = true /\ Rabs (B2R q - snd p) <= bpow radix2 (-53) * snd p)
  (seq 0 10) (chi2_rule n).
Proof. exact (tables_rounded n). Qed.
Print Assumptions C87_tables.

(** Every integral is the sum of the rules to a relative error of 1.2e-13, although up to
    1000 terms are added one by one. *)
Theorem C87_rounding w d :
  ordinary (d_elastic w) -> ordinary_or_zero (d_capture w) -> ordinary_or_zero (d_fission w) -> ordinary_or_zero (d_competition w) ->
  (1 <= d_elastic d <= 4)%nat -> (B2R (d_fission w) <> 0 -> (d_fission d <= 4)%nat) -> (B2R (d_competition w) <> 0 -> (d_competition d <= 4)%nat) ->
  let Gn := B2R (d_elastic w) in let Gg := B2R (d_capture w) in let Gf := B2R (d_fission w) in let Gx := B2R (d_competition w) in
  let rn := chi2_rule (d_elastic d) in let rf := width_rule Gf (Nat.max 1 (d_fission d)) in let rx := width_rule Gx (Nat.max 1 (d_competition d)) in
  exists x, fluctuationIntegrals64 w d = Ok x /\
    rounded (d_elastic x) (I_elastic Gn Gg Gf Gx rn rf rx) /\ rounded (d_capture x) (I_capture Gn Gg Gf Gx rn rf rx) /\
    (Gf <> 0 -> rounded (d_fission x) (I_fission Gn Gg Gf Gx rn rf rx)) /\ (Gf = 0 -> B2R (d_fission x) = 0) /\
    (Gx <> 0 -> rounded (d_competition x) (I_competition Gn Gg Gf Gx rn rf rx)) /\ (Gx = 0 -> B2R (d_competition x) = 0).
Proof. intros He Hc Hf Hx De Df Dx. exact (integrals_rounded w d He Hc Hf Hx De Df Dx). Qed.
Print Assumptions C87_rounding.

(** With the error of the rules: what the program computes against the averages over
    chi-square distributions *)
Theorem C87_accuracy w d :
  ordinary (d_elastic w) -> ordinary_or_zero (d_capture w) -> ordinary_or_zero (d_fission w) -> ordinary_or_zero (d_competition w) ->
  (1 <= d_elastic d <= 4)%nat -> (B2R (d_fission w) <> 0 -> (d_fission d <= 4)%nat) -> (B2R (d_competition w) <> 0 -> (d_competition d <= 4)%nat) ->
  let Gn := B2R (d_elastic w) in let Gg := B2R (d_capture w) in let Gf := B2R (d_fission w) in let Gx := B2R (d_competition w) in
  let df := Nat.max 1 (d_fission d) in let dx := Nat.max 1 (d_competition d) in
  let a := allowed_error Gf Gx (d_elastic d) df dx + 1.3e-13 in
  exists g e c f x, fluctuationIntegrals64 w d = Ok g /\ exact Gn Gg Gf Gx (d_elastic d) df dx e c f x /\ e + c + f + x = 1 /\
    is_finite (d_elastic g) = true /\ is_finite (d_capture g) = true /\ is_finite (d_fission g) = true /\ is_finite (d_competition g) = true /\
    Rabs (Gn * B2R (d_elastic g) - e) <= a /\ Rabs (Gg * B2R (d_capture g) - c) <= a /\
    Rabs (Gf * B2R (d_fission g) - f) <= a /\ Rabs (Gx * B2R (d_competition g) - x) <= a.
Proof. intros He Hc Hf Hx De Df Dx. exact (integrals_accurate64 w d He Hc Hf Hx De Df Dx). Qed.
Print Assumptions C87_accuracy.

(** Outside the range of widths: a finite positive neutron width gives an infinite integral. *)
Theorem C87_overflow_refuted : exists w d x, is_finite (d_elastic w) = true /\ 0 < B2R (d_elastic w) /\
  ordinary_or_zero (d_capture w) /\ ordinary_or_zero (d_fission w) /\ ordinary_or_zero (d_competition w) /\ (1 <= d_elastic d <= 4)%nat /\
  fluctuationIntegrals64 w d = Ok x /\ is_finite (d_elastic x) = false.
Proof. exact overflow_case64. Qed.
Print Assumptions C87_overflow_refuted.

(** Three widths that fluctuate *)
Example C87_case : exists x, fluctuationIntegrals64 (mkData (double_of 1) (double_of 2) (double_of 3) (double_of 4)) (mkData 1 0 2 4)%nat = Ok x /\
  rounded (d_fission x) (I_fission 1 2 3 4 (chi2_rule 1) (chi2_rule 2) (chi2_rule 4)).
Proof.
  destruct (C87_rounding (mkData (double_of 1) (double_of 2) (double_of 3) (double_of 4)) (mkData 1 0 2 4)%nat) as (x & E & _ & _ & F & _); cbn [d_elastic d_capture d_fission d_competition];
    try (apply ordinary_case; lia); try (right; apply ordinary_case; lia); try lia.
  exists x. split; [exact E|]. cbn [d_elastic d_capture d_fission d_competition] in F. rewrite !double_small in F by lia.
  unfold width_rule in F. destruct (Req_EM_T 3 0); [lra|]. destruct (Req_EM_T 4 0); [lra|]. apply F. lra.
Qed.
