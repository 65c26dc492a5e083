(** Hard-sphere functions: the claims C08-C12. *)
From Coq Require Import String List ZArith Lia Reals Lra.
From Coquelicot Require Import Coquelicot.
From Verif Require Import Outcome HardSphereModel HardSphereSpec HardSphereProofs.
Import ListNotations.
Open Scope R_scope.

(** C08 *)
Theorem C08_horner_reversed a x : a <> [] -> horner_r a x = Ok (power_sum a x).
Proof. exact (horner_r_spec a x). Qed.
Print Assumptions C08_horner_reversed.

Theorem C08_horner a x : a <> [] -> horner a x = Ok (power_sum (rev a) x).
Proof. exact (horner_spec a x). Qed.
Print Assumptions C08_horner.

(** The empty range is undefined behaviour. *)
Theorem C08_horner_empty x : is_ub (horner [] x).
Proof. exact (horner_empty x). Qed.
Print Assumptions C08_horner_empty.

Example C08_case : horner_r [9; 3; 1] 2 = Ok 19.
Proof. unfold horner_r, horner; cbn. f_equal; lra. Qed.

(** C09: the reference waves solve the radial equation and have unit Wronskian, for every l. *)
Theorem C09_radial_equation l rho : 0 < rho ->
  is_derive (waveF l) rho (dF l rho) /\ is_derive (waveG l) rho (dG l rho) /\
  is_derive (dF l) rho ((INR l * (INR l + 1) / rho ^ 2 - 1) * waveF l rho) /\
  is_derive (dG l) rho ((INR l * (INR l + 1) / rho ^ 2 - 1) * waveG l rho) /\
  dF l rho * waveG l rho - waveF l rho * dG l rho = 1.
Proof.
  exact (fun H => conj (waveF_derive l rho H) (conj (waveG_derive l rho H)
           (conj (waveF_ode l rho H) (conj (waveG_ode l rho H) (wronskian l rho))))).
Qed.
Print Assumptions C09_radial_equation.

(** The code returns the penetrability, shift factor and phase of these waves. *)
Theorem C09_penetrability l rho : 0 < rho -> (l <= 4)%nat ->
  penetrability_neutron l rho = Ok (P_spec l rho).
Proof. exact (penetrability_code l rho). Qed.
Print Assumptions C09_penetrability.

Theorem C09_shift_factor l rho : 0 < rho -> (l <= 4)%nat -> shift_neutron l rho = Ok (S_spec l rho).
Proof. exact (shift_code l rho). Qed.
Print Assumptions C09_shift_factor.

Theorem C09_phase_shift l rho : 0 < rho -> (l <= 4)%nat ->
  exists phi, phase_neutron l rho = Ok phi /\ is_phase l rho phi.
Proof. exact (phase_code l rho). Qed.
Print Assumptions C09_phase_shift.

(** The recursion of the ENDF manual between consecutive l. *)
Theorem C09_recursion l r p s phi : 0 < r -> (l < 4)%nat ->
  penetrability_neutron l r = Ok p -> shift_neutron l r = Ok s -> phase_neutron l r = Ok phi ->
  penetrability_neutron (S l) r = Ok (r ^ 2 * p / ((INR (S l) - s) ^ 2 + p ^ 2)) /\
  shift_neutron (S l) r = Ok (r ^ 2 * (INR (S l) - s) / ((INR (S l) - s) ^ 2 + p ^ 2) - INR (S l)) /\
  exists phi' k, phase_neutron (S l) r = Ok phi' /\
    phi' = phi - atan (p / (INR (S l) - s)) + IZR k * PI.
Proof. exact (recursion_code l r p s phi). Qed.
Print Assumptions C09_recursion.

Theorem C09_larger_l_throws l r : (4 < l)%nat ->
  throws (penetrability_neutron l r) /\ throws (shift_neutron l r) /\ throws (phase_neutron l r).
Proof. exact (hard_sphere_throws l r). Qed.
Print Assumptions C09_larger_l_throws.

Example C09_case : penetrability_neutron 2 1 = Ok (1 / 13) /\ shift_neutron 2 1 = Ok (- 21 / 13).
Proof. unfold penetrability_neutron, shift_neutron, horner_r, horner; cbn. split; f_equal; field. Qed.

(** C10 *)
Theorem C10_penetrability_range l r : 0 < r -> (l <= 4)%nat ->
  exists p, penetrability_neutron l r = Ok p /\ 0 < p <= r.
Proof. exact (fun H H' => ex_intro _ _ (conj (penetrability_code l r H H') (P_range l r H H'))). Qed.
Print Assumptions C10_penetrability_range.

Theorem C10_shift_range l r : 0 < r -> (l <= 4)%nat ->
  exists s, shift_neutron l r = Ok s /\ - INR l <= s <= 0.
Proof. exact (fun H H' => ex_intro _ _ (conj (shift_code l r H H') (S_range l r H H'))). Qed.
Print Assumptions C10_shift_range.

Theorem C10_penetrability_increasing l a b p q : 0 < a < b -> (l <= 4)%nat ->
  penetrability_neutron l a = Ok p -> penetrability_neutron l b = Ok q -> p < q.
Proof. exact (penetrability_mono l a b p q). Qed.
Print Assumptions C10_penetrability_increasing.

Example C10_case : exists p q, penetrability_neutron 1 1 = Ok p /\ penetrability_neutron 1 2 = Ok q /\
  p = 1 / 2 /\ q = 8 / 5 /\ p < q.
Proof. do 2 eexists; split; [reflexivity|]; split; [reflexivity|]; lra. Qed.

(** C11 *)
Theorem C11_interfaces_agree l r : 0 <= r ->
  omap fst (penetrationShift (Z.of_nat l) r) = penetrability_neutron l r /\
  omap snd (penetrationShift (Z.of_nat l) r) = shift_neutron l r.
Proof. exact (interfaces_agree l r). Qed.
Print Assumptions C11_interfaces_agree.

Theorem C11_phases_agree l r : 0 < r -> phaseShift (Z.of_nat l) r = phase_neutron l r.
Proof. exact (phases_agree l r). Qed.
Print Assumptions C11_phases_agree.

Theorem C11_negative_l L r : (L < 0)%Z -> throws (penetrationShift L r) /\ throws (phaseShift L r).
Proof. exact (old_negative_L L r). Qed.
Print Assumptions C11_negative_l.

Example C11_case : penetrationShift 2 1 = Ok (1 / 13, - 21 / 13).
Proof.
  unfold penetrationShift; cbn [Z.eqb Pos.eqb]. destruct (Rlt_dec 0 1) as [_|n]; [|exfalso; lra].
  f_equal; f_equal; field.
Qed.

(** C12 *)
Theorem C12_phase_slope l r : 0 < r -> (l <= 4)%nat -> ~ pole l r ->
  is_derive (phase_value l) r (P_spec l r / r).
Proof. exact (phase_slope l r). Qed.
Print Assumptions C12_phase_slope.

(** Poles included: what enters a cross section is the smooth double angle. *)
Theorem C12_double_angle l r : 0 < r -> (l <= 4)%nat -> exists phi, phase_neutron l r = Ok phi /\
  cos (2 * phi) = (waveG l r ^ 2 - waveF l r ^ 2) / amplitude2 l r /\
  sin (2 * phi) = 2 * waveF l r * waveG l r / amplitude2 l r.
Proof. exact (phase_double_angle l r). Qed.
Print Assumptions C12_double_angle.

(** Both a regular point and a pole exist. *)
Example C12_case : ~ pole 2 1 /\ pole 2 (sqrt 3) /\ 0 < sqrt 3 /\
  phase_neutron 2 (sqrt 3) = Ok (sqrt 3 - PI / 2).
Proof.
  assert (H : sqrt 3 * sqrt 3 = 3) by (apply sqrt_sqrt; lra).
  assert (H0 : 0 < sqrt 3) by (apply sqrt_lt_R0; lra).
  unfold pole. repeat split; try lra.
  cbn [phase_neutron]. rewrite H. unfold atan_quotient.
  destruct (Req_EM_T (3 - 3) 0) as [_|n]; [|exfalso; lra]. destruct (Rlt_dec (3 * sqrt 3) 0); [exfalso; lra|reflexivity].
Qed.
