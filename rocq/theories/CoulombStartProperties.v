(** C56 to C58: where the Coulomb wave functions are started. *)
From Coq Require Import String List ZArith Reals Lra Lia.
From Coquelicot Require Import Coquelicot.
From Verif Require Import Outcome CoulombWaveModel CoulombWaveSpec CoulombExactModel CoulombRiccatiProofs CoulombOscillationProofs CoulombMeshProofs.
Import ListNotations.
Open Scope R_scope.

(** ** C56: the slope belongs to the value.  Below the turning point it does, except for a term of
    sixth order in 1 / (2 eta) ... *)
Theorem C56_riccati y : 0 < y -> exists f f1 : R -> R,
  (forall x, 0 < x < 2 * y -> omGcase1 exact (Fin x) (Fin y) = (Fin (f x), Fin (f1 x))) /\
  (forall x, 0 < x < 2 * y -> 0 < f x < exp 100 -> is_derive f x (f1 x + (1 / (2 * y)) ^ 6 * slip (x / (2 * y)) * f x)).
Proof. exact (riccati_slope y). Qed.
Print Assumptions C56_riccati.
(** ... which does not vanish, since one sign in it is wrong. *)
Theorem C56_riccati_refuted : exists y x f f1, 0 < x < 2 * y /\
  (forall x, 0 < x < 2 * y -> omGcase1 exact (Fin x) (Fin y) = (Fin (f x), Fin (f1 x))) /\ ~ is_derive f x (f1 x).
Proof. exact riccati_slope_wrong. Qed.
Print Assumptions C56_riccati_refuted.
(** Above the turning point there are two terms too many: one from a factor that is missing in
    the slope of the modulus, one from a digit that differs between phase and slope. *)
Theorem C56_oscillation y : 0 < y -> exists f f1 m phi : R -> R,
  (forall r, 2 * y < r -> omGcase4 exact (Fin r) (Fin y) = (Fin (f r), Fin (f1 r))) /\
  (forall r, 2 * y < r -> let x := 2 * y / r in let z := 1 / (2 * y) in
    f r = m r * cos (phi r) /\
    is_derive f r (f1 r + x ^ 2 * ((1 - z / (1 - x)) * tail z x * f r - z ^ 6 * slipped x * (m r * sin (phi r))))).
Proof. exact (oscillation_slope y). Qed.
Print Assumptions C56_oscillation.
(** Within the region where the expansion is used as it is, the slope is off by more than 2.5 percent. *)
Theorem C56_oscillation_refuted : exists y r f f1 d, 5 <= y < 15 /\ 25 / 10 * y + 75 / 10 <= r /\
  (forall r, 2 * y < r -> omGcase4 exact (Fin r) (Fin y) = (Fin (f r), Fin (f1 r))) /\
  is_derive f r d /\ d <> 0 /\ Rabs d / 40 < Rabs (f1 r - d).
Proof. exact oscillation_slope_wrong. Qed.
Print Assumptions C56_oscillation_refuted.
(** These regions: what the expansions give is used without integration. *)
Theorem C56_riccati_used r y s : 15 <= y -> 16 < r <= 5 * y / 3 - 5 ->
  omAsymptotic exact (Fin r) (Fin y) s = Ok (omGcase1 exact (Fin r) (Fin y)).
Proof. exact (asymptotic_riccati r y s). Qed.
Print Assumptions C56_riccati_used.
Theorem C56_oscillation_used r y s : 5 <= y < 15 -> 25 / 10 * y + 75 / 10 <= r ->
  omAsymptotic exact (Fin r) (Fin y) s = Ok (omGcase4 exact (Fin r) (Fin y)).
Proof. exact (asymptotic_oscillation r y s). Qed.
Print Assumptions C56_oscillation_used.
Example C56_cases : 15 <= 20 /\ 16 < 20 <= 5 * 20 / 3 - 5 /\ 5 <= 6 < 15 /\ 25 / 10 * 6 + 75 / 10 <= 30.
Proof. lra. Qed.

(** ** C57: the Riccati expansion solves the Coulomb equation order by order.  It does up to the
    fourth order ... *)
Theorem C57_order_partial : exists S : nat -> R -> R,
  (forall y t p0 p1, 0 < y -> 0 < t < 1 -> omGcase1 exact (Fin (2 * y * t)) (Fin y) = (Fin p0, Fin p1) ->
    p1 = p0 * sum_f_R0 (fun n => S n t * (1 / (2 * y)) ^ n) 7) /\
  (forall n t, (n <= 4)%nat -> 0 < t < 1 -> hierarchy S n t).
Proof. destruct riccati_order as (S & A & B & _). exact (ex_intro _ S (Logic.conj A B)). Qed.
Print Assumptions C57_order_partial.
(** ... at the fifth, the product of the second and the third coefficient was counted once
    instead of twice, and the sixth and seventh fail as well. *)
Theorem C57_order_refuted : exists S : nat -> R -> R,
  (forall y t p0 p1, 0 < y -> 0 < t < 1 -> omGcase1 exact (Fin (2 * y * t)) (Fin y) = (Fin p0, Fin p1) ->
    p1 = p0 * sum_f_R0 (fun n => S n t * (1 / (2 * y)) ^ n) 7) /\
  (forall n t, (n <= 4)%nat -> 0 < t < 1 -> hierarchy S n t) /\
  (forall t, 0 < t < 1 -> is_derive (S 4%nat) t (S 2%nat t * S 3%nat t - sum_f_R0 (fun i => S i t * S (5 - i)%nat t) 5)) /\
  ~ hierarchy S 5 (1 / 2) /\ ~ hierarchy S 6 (1 / 2) /\ ~ hierarchy S 7 (1 / 2).
Proof. exact riccati_order. Qed.
Print Assumptions C57_order_refuted.

(** ** C58: the values at the turning point are carried to rho in steps no longer than the mesh.
    Towards the origin they are ... *)
Theorem C58_inward r y s : 15 <= y -> 16 < r -> 5 * y / 3 - 5 < r < 2 * y -> 2 * y - r < 9000 ->
  exists p0 p1 n h, omGcase2 exact (Fin y) = (Fin p0, Fin p1) /\
    omAsymptotic exact (Fin r) (Fin y) s = omNewmark exact n (Fin h) (Fin y) (Fin (2 * y)) (Fin p0) (Fin p1) /\
    (0 < n)%Z /\ 2 * y - IZR n * h = r /\ Rabs h <= 1 / 100.
Proof.
  intros H1 H2 H3 H4. destruct (inward_steps r y s H1 H2 H3 H4) as [E [n [h H]]]. exists (fst (at_turning y)), (snd (at_turning y)), n, h. split; [exact E | exact H].
Qed.
Print Assumptions C58_inward.
(** ... but away from it never, since one is added to a negative number that was rounded towards zero ... *)
Theorem C58_outward_refuted r y s : 15 <= y -> 2 * y + 2 / 100 <= r < 2 * y + 9000 ->
  exists p0 p1 n h, omGcase2 exact (Fin y) = (Fin p0, Fin p1) /\
    omAsymptotic exact (Fin r) (Fin y) s = omNewmark exact n (Fin h) (Fin y) (Fin (2 * y)) (Fin p0) (Fin p1) /\
    (0 < n)%Z /\ 2 * y - IZR n * h = r /\ 1 / 100 < Rabs h.
Proof.
  intros H1 H2. destruct (outward_steps r y s H1 H2) as [E [n [h H]]]. exists (fst (at_turning y)), (snd (at_turning y)), n, h. split; [exact E | exact H].
Qed.
Print Assumptions C58_outward_refuted.
(** ... and for rho between one and two meshes above the turning point, no step is taken: the values at
    the turning point are returned as those at rho. *)
Theorem C58_skipped_refuted d y s : 15 <= y -> 1 / 100 <= d < 2 / 100 ->
  omAsymptotic exact (Fin (2 * y + d)) (Fin y) s = omAsymptotic exact (Fin (2 * y)) (Fin y) s /\
  omAsymptotic exact (Fin (2 * y)) (Fin y) s = Ok (omGcase2 exact (Fin y)).
Proof. exact (no_steps d y s). Qed.
Print Assumptions C58_skipped_refuted.
Example C58_cases : 15 <= 20 /\ 16 < 39 /\ 5 * 20 / 3 - 5 < 39 < 2 * 20 /\ 2 * 20 - 39 < 9000 /\ 2 * 20 + 2 / 100 <= 41 < 2 * 20 + 9000 /\ 1 / 100 <= 15 / 1000 < 2 / 100.
Proof. lra. Qed.
