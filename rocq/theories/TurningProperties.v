(** The starting values of the Coulomb functions at the turning point (C80). *)
From Coq Require Import Reals List.
From Coquelicot Require Import Coquelicot.
From Verif Require Import Outcome CoulombWaveModel CoulombExactModel TurningSpec TurningProofs TurningSolve TurningExpansion TurningNumbers TurningCode AiryProofs.
Import ListNotations.
Open Scope R_scope.

(** The sum of the orders up to n of an expansion solves the Coulomb equation up to terms of order n + 2 *)
Theorem C80_solves : forall n p q, turning_expansion n p q -> forall A A1 eta, airy A A1 -> 0 < eta ->
  let c := Rpower (2 * eta) (1 / 3) in let e := Rpower (2 * eta) (- (2 / 3)) in
  exists w1, w1 (2 * eta) = / c * sum_f_R0 (fun k => e ^ k * (Derive (p k) 0 * A 0 + (p k 0 + Derive (q k) 0) * A1 0)) n /\
  forall rho, 0 < rho -> let x := (rho - 2 * eta) / c in
    is_derive (fun r => expansion n p q A A1 e ((r - 2 * eta) / c)) rho (w1 rho) /\
    is_derive w1 rho ((2 * eta / rho - 1) * expansion n p q A A1 e x
      + e ^ S (S n) * (2 * eta / rho) * (x * ((defect_p (p n) (q n) x - x * p n x) * A x + (defect_q (p n) (q n) x - x * q n x) * A1 x))).
Proof. exact solves. Qed.
Print Assumptions C80_solves.

(** and two of them have the Wronskian of their Airy functions up to order n + 1 *)
Theorem C80_wronskian : forall n p q, turning_expansion (S n) p q -> exists c, forall A A1 B B1 e, airy A A1 -> airy B B1 -> 0 <= e <= 1 ->
  let W A A1 := sum_f_R0 (fun k => e ^ k * (p k 0 * A 0 + q k 0 * A1 0)) (S n) in
  let W' A A1 := sum_f_R0 (fun k => e ^ k * (Derive (p k) 0 * A 0 + (p k 0 + Derive (q k) 0) * A1 0)) (S n) in
  Rabs (W A A1 * W' B B1 - W' A A1 * W B B1 - (A 0 * B1 0 - A1 0 * B 0)) <= c * Rabs (A 0 * B1 0 - A1 0 * B 0) * e ^ S (S n).
Proof. exact wronskian_kept. Qed.
Print Assumptions C80_wronskian.

(** There is one expansion, and no other *)
Theorem C80_unique : (exists p q, turning_expansion 8 p q) /\
  forall n p q p' q', turning_expansion n p q -> turning_expansion n p' q' -> forall k x, (k <= n)%nat -> p k x = p' k x /\ q k x = q' k x.
Proof. exact (Logic.conj (ex_intro _ pk (ex_intro _ qk expansion_exists)) unique). Qed.
Print Assumptions C80_unique.

(** The coefficients of omGcase2 are those of the expansion, but for the last one of the value: order 8 is missing here *)
Theorem C80_coefficients_partial : exists c d : nat -> R,
  (forall y, 0 < y -> omGcase2 exact (Fin y) = (Fin (sum_f_R0 (fun k => c k * Rpower y (1 / 6 - 2 * INR k / 3)) 8), Fin (sum_f_R0 (fun k => d k * Rpower y (- (1 / 6) - 2 * INR k / 3)) 8))) /\
  forall p q g13 g23, turning_expansion 8 p q -> is_Gamma (1 / 3) g13 -> is_Gamma (2 / 3) g23 ->
  let G := G_coefficient p q g13 g23 in let G' := G'_coefficient p q g13 g23 in
  Rabs (c 0%nat - G 0%nat) <= 1 / 1000000000 /\ Rabs (d 0%nat - G' 0%nat) <= 1 / 10000000000 /\
  (forall k, (k < 8)%nat -> Rabs (c k / c 0%nat - G k / G 0%nat) <= if (k <=? 2)%nat then 4 / 100000000000 else 1 / 1000000000000) /\
  (forall k, (k <= 8)%nat -> Rabs (d k / d 0%nat - G' k / G' 0%nat) <= if (k <=? 2)%nat then 4 / 100000000000 else 1 / 1000000000000).
Proof. exact coefficients_but_last. Qed.
Print Assumptions C80_coefficients_partial.

(** The coefficient of eta^(-16/3) in the value should be 0.000845..., not 0.000253... *)
Theorem C80_last_refuted : exists c : nat -> R,
  (forall y, 0 < y -> exists p1, omGcase2 exact (Fin y) = (Fin (sum_f_R0 (fun k => c k * Rpower y (1 / 6 - 2 * INR k / 3)) 8), Fin p1)) /\
  forall p q g13 g23, turning_expansion 8 p q -> is_Gamma (1 / 3) g13 -> is_Gamma (2 / 3) g23 ->
  let G := G_coefficient p q g13 g23 in
  2534 / 10000000 <= c 8%nat / c 0%nat <= 2535 / 10000000 /\ 845361 / 1000000000 <= G 8%nat / G 0%nat <= 845363 / 1000000000.
Proof. exact last_wrong. Qed.
Print Assumptions C80_last_refuted.

(** The hypotheses are met: Bi (- x) or any other Airy function, and the gamma function *)
Example C80_airy : forall a0 a1, exists A A1, airy A A1 /\ A 0 = a0 /\ A1 0 = a1.
Proof. exact airy_exists. Qed.
Example C80_gamma : (exists g, 0 < g /\ is_Gamma (1 / 3) g) /\ (exists g, 0 < g /\ is_Gamma (2 / 3) g).
Proof. exact gamma_exists. Qed.
Example C80_first_orders : forall p q, turning_expansion 8 p q -> p 1%nat 0 = 0 /\ q 2%nat 0 = - (6 / 35) /\ p 3%nat 0 = - (8 / 225).
Proof. exact first_orders. Qed.
