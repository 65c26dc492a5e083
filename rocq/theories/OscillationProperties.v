(** The expansion of the Coulomb functions in the oscillating region (C82). *)
From Coq Require Import Reals.
From Coquelicot Require Import Coquelicot.
From Verif Require Import Outcome CoulombWaveModel CoulombExactModel AsymptoticSpec SigmaSpec IrregularSpec OscillationSpec OscillationCode.
Open Scope R_scope.

(** The value solves the Coulomb equation up to the fifth order in 1 / (2 eta), with these terms of order 5 to 7 *)
Theorem C82_orders : exists C, forall y, 1 / 2 <= y -> exists f f1 m phi rest : R -> R, forall r, 2 * y < r -> let x := 2 * y / r in let z := 1 / (2 * y) in
  (exists d, omGcase4 exact (Fin r) (Fin y) = (Fin (f r), d)) /\ f r = m r * cos (phi r) /\ 0 < m r /\
  is_derive f r (f1 r) /\ is_derive f1 r ((x - 1) * f r + rest r) /\
  (3 * y <= r -> Rabs (rest r - m r * left_over z x (phi r)) <= C * z ^ 8 * m r).
Proof. exact orders. Qed.
Print Assumptions C82_orders.

(** Its phase far away is the Coulomb phase, which the formula does not take as an argument *)
Theorem C82_phase : forall y sigma, 4 <= y -> coulomb_phase y sigma -> exists (f : R -> R) s, (forall r, 2 * y < r -> exists d, omGcase4 exact (Fin r) (Fin y) = (Fin (f r), d)) /\
  is_lim (fun r => f r - cos (theta y s r)) p_infty 0 /\ Rabs (s - sigma) <= 5 / 10 ^ 8 + 2 / 10 ^ 5 / y ^ 3.
Proof. exact far_phase. Qed.
Print Assumptions C82_phase.

(** The code returns the irregular Coulomb function to three digits and its slope to two *)
Theorem C82_code : forall eta rho s G G1, 5 <= eta < 15 -> 25 / 10 * eta + 75 / 10 <= rho -> irregular eta G G1 ->
  exists g g1, omAsymptotic exact (Fin rho) (Fin eta) s = Ok (Fin g, Fin g1) /\ Rabs (g - G rho) <= / 1000 /\ Rabs (g1 - G1 rho) <= / 100.
Proof. exact oscillation_code. Qed.
Print Assumptions C82_code.

Example C82_at_20 : exists G G1 g g1, irregular 5 G G1 /\ omAsymptotic exact (Fin 20) (Fin 5) (sigma0_of exact (Fin 5)) = Ok (Fin g, Fin g1) /\ Rabs (g - G 20) <= / 1000 /\ Rabs (g1 - G1 20) <= / 100.
Proof. exact at_20. Qed.
