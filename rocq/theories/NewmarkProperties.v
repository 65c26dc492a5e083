(** C74: the integration of the Coulomb equation. *)
From Coq Require Import String List ZArith Reals Lra Lia.
From Coquelicot Require Import Coquelicot.
From Verif Require Import Outcome CoulombWaveModel CoulombWaveSpec CoulombExactModel NewmarkSpec NewmarkProofs NewmarkErrorProofs NewmarkTheorems CoulombSeriesProofs.
Open Scope R_scope.

(** ** C74: the integration takes n steps of Newmark's method, each with an acceleration that satisfies
    the equation to ten digits.  It gives up, returning zeros, only where the acceleration all but
    vanishes. *)
Theorem C74_steps n h eta x p0 p1 : (0 <= n)%Z -> (forall k, (k <= Z.to_nat n)%nat -> x - INR k * h <> 0) ->
  exists a b, omNewmark exact n (Fin h) (Fin eta) (Fin x) (Fin p0) (Fin p1) = Ok (a, b) /\
  ((exists g f, integration eta x h p0 p1 (Z.to_nat n) g f /\ a = Fin (g (Z.to_nat n)) /\ b = Fin (f (Z.to_nat n))) \/
   (a = Fin 0 /\ b = Fin 0 /\ ((forall k, (k <= Z.to_nat n)%nat -> h ^ 2 * Rabs (2 * eta / (x - INR k * h) - 1) <= 1) -> vanishing eta x h p0 p1 (Z.to_nat n)))).
Proof. exact (newmark_exact n h eta x p0 p1). Qed.
Print Assumptions C74_steps.
Example C74_steps_case : (0 <= 3)%Z /\ (forall k, (k <= Z.to_nat 3)%nat -> 40 - INR k * (1 / 100) <> 0) /\ (forall k, (k <= Z.to_nat 3)%nat -> (1 / 100) ^ 2 * Rabs (2 * 20 / (40 - INR k * (1 / 100)) - 1) <= 1).
Proof.
  assert (B : forall k, (k <= Z.to_nat 3)%nat -> 39 <= 40 - INR k * (1 / 100) <= 40) by (intros k Hk; apply le_INR in Hk; change (Z.to_nat 3) with 3%nat in Hk; cbn [INR] in Hk; pose proof (pos_INR k); lra).
  split; [discriminate|]. split; intros k Hk; specialize (B k Hk); [lra|]. set (x := 40 - INR k * (1 / 100)) in *.
  assert (0 < / x <= / 39) by (split; [apply Rinv_0_lt_compat; lra | apply Rinv_le_contravar; lra]). assert (Rabs (2 * 20 / x - 1) <= 1) by (apply Rabs_le; unfold Rdiv; lra). lra.
Qed.
(** Its distance from any solution of the equation is of second order in the step. *)
Theorem C74_error eta lo hi W U u u1 x h p0 p1 n g f : 0 < lo -> solution eta lo hi u u1 -> bounded eta lo hi W U u u1 ->
  Rabs h <= 1 -> Rabs h * W <= 1 / 2 -> (forall k, (k <= n)%nat -> lo <= x - INR k * h <= hi) -> integration eta x h p0 p1 n g f ->
  forall k, (k <= n)%nat -> Rabs (g k - u (x - INR k * h)) + Rabs (f k - u1 (x - INR k * h)) <=
    exp (INR k * Rabs h * (1 + 3 * W)) * (Rabs (p0 - u x) + Rabs (p1 - u1 x) + INR k * Rabs h * (/ 10000000000 * (1 + W * U) + h ^ 2 * ((4 + W) * W * U))).
Proof. intros H S B. exact (integration_error eta lo hi W U u u1 H S B x h p0 p1 n g f). Qed.
Print Assumptions C74_error.
(** From the turning point towards the origin, it never gives up. *)
Theorem C74_carried r y s u u1 U : 15 <= y -> 16 < r -> 5 * y / 3 - 5 < r < 2 * y -> 2 * y - r < 9000 ->
  solution y r (2 * y) u u1 -> (forall x, r <= x <= 2 * y -> Rabs (u x) <= U /\ Rabs (u1 x) <= U) ->
  exists p0 p1 g f, omGcase2 exact (Fin y) = (Fin p0, Fin p1) /\ omAsymptotic exact (Fin r) (Fin y) s = Ok (Fin g, Fin f) /\
    Rabs (g - u r) + Rabs (f - u1 r) <= exp (5 / 2 * (2 * y - r)) *
      (Rabs (p0 - u (2 * y)) + Rabs (p1 - u1 (2 * y)) + (2 * y - r) * (/ 10000000000 * (1 + U / 2) + 9 / 4 * / 10000 * U)).
Proof. exact (carried r y s u u1 U). Qed.
Print Assumptions C74_carried.
(** A solution to compare with: the regular one, zero at the origin with slope one. *)
Example C74_case : 15 <= 20 /\ 16 < 39 /\ 5 * 20 / 3 - 5 < 39 < 2 * 20 /\ 2 * 20 - 39 < 9000 /\
  exists u u1 U, u 0 = 0 /\ u1 0 = 1 /\ solution 20 39 (2 * 20) u u1 /\ (forall x, 39 <= x <= 2 * 20 -> Rabs (u x) <= U /\ Rabs (u1 x) <= U).
Proof.
  repeat (split; [lra|]). assert (S : solution 20 39 (2 * 20) (regular 20) (regular_slope 20)) by (apply regular_solution; lra).
  destruct (solution_bounded 20 39 (2 * 20) _ _ ltac:(lra) S) as [U H]. exists (regular 20), (regular_slope 20), U. split; [apply regular_origin|]. split; [apply regular_origin|]. split; [exact S | exact H].
Qed.
