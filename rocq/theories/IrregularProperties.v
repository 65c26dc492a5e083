(** The irregular Coulomb function and the values of the code far from the turning point (C81). *)
From Coq Require Import Reals.
From Coquelicot Require Import Coquelicot.
From Verif Require Import Outcome CoulombWaveModel CoulombExactModel NewmarkSpec AsymptoticSpec SigmaSpec IrregularSpec IrregularProofs IrregularFar IrregularCode IrregularCases.
Open Scope R_scope.

(** There is an irregular Coulomb function *)
Theorem C81_exists : forall eta, 0 <= eta -> exists G G1, irregular eta G G1.
Proof. exact irregular_exists. Qed.
Print Assumptions C81_exists.

(** and no other *)
Theorem C81_unique : forall eta G G1 H H1, 0 <= eta -> irregular eta G G1 -> irregular eta H H1 -> forall r, 0 < r -> G r = H r /\ G1 r = H1 r.
Proof. exact irregular_unique. Qed.
Print Assumptions C81_unique.

(** Outside the turning point the sum of any number of terms of the asymptotic expansion is as near to it
    as twice the first term that was left out, and its slope as well *)
Theorem C81_terms : forall eta sigma G G1 N r, 0 <= eta -> irregular eta G G1 -> coulomb_phase eta sigma -> 2 * eta < r ->
  let (a, b) := expansion eta (S N) in let e := 2 * sqrt (a ^ 2 + b ^ 2) / r ^ S N in
  is_derive (wave eta sigma N) r (slopes eta N r (theta eta sigma r)) /\
  Rabs (slopes eta N r (theta eta sigma r) - G1 r) <= e /\ sqrt (1 - 2 * eta / r) * Rabs (wave eta sigma N r - G r) <= e.
Proof. exact terms_near. Qed.
Print Assumptions C81_terms.

(** From rho = 2 eta + 10 the code returns it, and its slope, unless two terms of the sum look the same *)
Theorem C81_code : forall eta rho G G1, 0 <= eta < 5 -> 2 * eta + 10 <= rho -> irregular eta G G1 -> (forall k, (k < 18)%nat -> ~ repeating eta rho k) ->
  exists g g1, omAsymptotic exact (Fin rho) (Fin eta) (sigma0_of exact (Fin eta)) = Ok (Fin g, Fin g1) /\ Rabs (g - G rho) <= / 10 ^ 7 /\ Rabs (g1 - G1 rho) <= 2 / 10 ^ 7.
Proof. exact far_asymptotic. Qed.
Print Assumptions C81_code.

(** Cases: terms that do not look the same, and terms that do *)
Example C81_no_repetition : forall k, (k < 18)%nat -> ~ repeating 1 12 k.
Proof. exact not_repeating. Qed.
Example C81_repetition : exists eta, 2 <= eta <= 9 / 4 /\ repeating eta (2 * eta + 10) 2.
Proof. exact look_the_same. Qed.
Example C81_at_12 : exists G G1 g g1, irregular 1 G G1 /\ omAsymptotic exact (Fin 12) (Fin 1) (sigma0_of exact (Fin 1)) = Ok (Fin g, Fin g1) /\ Rabs (g - G 12) <= / 10 ^ 7 /\ Rabs (g1 - G1 12) <= 2 / 10 ^ 7.
Proof. exact at_12. Qed.
