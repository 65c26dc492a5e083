(** C94: the irregular Coulomb function between the origin and the start of the expansions. *)
From Coq Require Import Reals.
From Coquelicot Require Import Coquelicot.
From Verif Require Import Outcome CoulombWaveModel CoulombExactModel NewmarkSpec AsymptoticSpec SigmaSpec IrregularSpec InwardSpec InwardTheorems InwardCases InwardFive InwardProofs.
Open Scope R_scope.

(** An integration towards the origin loses no more than [inward_error]: for an oscillator, errors do not grow at all *)
Theorem C94_steps eta lo hi W U u u1 h p0 p1 n g f : solution eta lo hi u u1 -> limits eta lo hi W U u u1 -> 0 <= h <= 1 / 100 -> h * W <= 1 / 10 ->
  (forall k, (k <= n)%nat -> lo <= hi - INR k * h) -> integration eta hi h p0 p1 n g f ->
  forall k, (k <= n)%nat -> gap (g k - u (hi - INR k * h)) (f k - u1 (hi - INR k * h)) <=
    growth eta (hi - INR k * h) hi * exp (INR k * h * step_growth eta lo W h) * (gap (p0 - u hi) (p1 - u1 hi) + INR k * h * step_loss eta lo W U h).
Proof. intros S L. exact (integration_gap eta lo hi W U u u1 S L h p0 p1 n g f). Qed.
Print Assumptions C94_steps.

(** Below eta = 5, the code starts at 2 eta + 10 and returns the irregular function at rho within that error,
    or zeros if the acceleration vanishes on the way *)
Theorem C94_below_5 : forall eta rho G G1 W U, let ra := 2 * eta + 10 in 0 <= eta < 5 -> 0 < rho < ra -> irregular eta G G1 -> (forall k, (k < 18)%nat -> ~ repeating eta ra k) ->
  / 10 ^ 7 < Rabs (G ra) -> 2 / 10 ^ 7 < Rabs (G1 ra) -> W <= 10 -> limits eta rho ra W U G G1 ->
  exists p0 p1 a b, Rabs (p0 - G ra) <= / 10 ^ 7 /\ Rabs (p1 - G1 ra) <= 2 / 10 ^ 7 /\
    omAsymptotic exact (Fin rho) (Fin eta) (sigma0_of exact (Fin eta)) = Ok (a, b) /\
    ((exists g g1, a = Fin g /\ b = Fin g1 /\ gap (g - G rho) (g1 - G1 rho) <= inward_error eta rho ra W U (1 / 100) (3 / 10 ^ 7)) \/
     (a = Fin 0 /\ b = Fin 0 /\ gave_up eta rho ra p0 p1)).
Proof. exact far_inward. Qed.
Print Assumptions C94_below_5.

(** From eta = 5 to 15, beyond the turning point, it starts at 2.5 eta + 7.5 *)
Theorem C94_below_15 : forall eta rho s G G1 W U, let ra := 25 / 10 * eta + 75 / 10 in 5 <= eta < 15 -> 2 * eta < rho < ra -> irregular eta G G1 ->
  / 1000 < Rabs (G ra) -> / 100 < Rabs (G1 ra) -> W <= 10 -> limits eta rho ra W U G G1 ->
  exists p0 p1 a b, Rabs (p0 - G ra) <= / 1000 /\ Rabs (p1 - G1 ra) <= / 100 /\
    omAsymptotic exact (Fin rho) (Fin eta) s = Ok (a, b) /\
    ((exists g g1, a = Fin g /\ b = Fin g1 /\ gap (g - G rho) (g1 - G1 rho) <= inward_error eta rho ra W U (1 / 100) (11 / 1000)) \/
     (a = Fin 0 /\ b = Fin 0 /\ gave_up eta rho ra p0 p1)).
Proof. exact oscillation_inward. Qed.
Print Assumptions C94_below_15.

(** It does not stop on the way while the function keeps away from zero and the equation from its turning point *)
Theorem C94_no_stop : forall eta rho ra p0 p1 W U u u1 e m, rho < ra -> W <= 10 -> solution eta rho ra u u1 -> limits eta rho ra W U u u1 -> gap (p0 - u ra) (p1 - u1 ra) <= e ->
  0 < m -> 2 * inward_error eta rho ra W U (1 / 100) e + U / 50 <= m ->
  (forall x, rho <= x <= ra -> m <= Rabs (u x) /\ / 10 ^ 10 <= Rabs (2 * eta / x - 1)) -> ~ gave_up eta rho ra p0 p1.
Proof. exact never_gives_up. Qed.
Print Assumptions C94_no_stop.

(** eta = 1: from 12 to 6, to 1/1000 unless it stops, and two steps from 12, to 1/100000 *)
Example C94_to_6 : exists G G1 a b, irregular 1 G G1 /\ omAsymptotic exact (Fin 6) (Fin 1) (sigma0_of exact (Fin 1)) = Ok (a, b) /\
  ((exists g g1, a = Fin g /\ b = Fin g1 /\ gap (g - G 6) (g1 - G1 6) <= / 1000) \/ (exists p0 p1, a = Fin 0 /\ b = Fin 0 /\ gave_up 1 6 12 p0 p1)).
Proof. exact case_inward. Qed.
Example C94_two_steps : exists G G1 g g1, irregular 1 G G1 /\ omAsymptotic exact (Fin (1198 / 100)) (Fin 1) (sigma0_of exact (Fin 1)) = Ok (Fin g, Fin g1) /\ gap (g - G (1198 / 100)) (g1 - G1 (1198 / 100)) <= / 100000.
Proof. exact near_inward. Qed.
(** eta = 5: from 20 to 11, the conditions hold *)
Example C94_five : exists G G1 U, irregular 5 G G1 /\ / 1000 < Rabs (G 20) /\ / 100 < Rabs (G1 20) /\ limits 5 11 20 1 U G G1.
Proof. exact five_inward. Qed.
