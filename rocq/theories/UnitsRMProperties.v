(** C102: the units of energy and length do not matter for Reich-Moore cross sections of the older
    interface.  The constant of the wave number is arbitrary. *)
From Coq Require Import String List ZArith Reals Lia Lra.
From Verif Require Import Outcome HardSphereModel KinematicsModel ChannelModel BreitWignerModel ListFacts KMatrixModel ReichMooreModel ReichMooreSpec ReichMooreProofs ReichMooreFile ReichMooreTheory ReichMooreCases UnitsSpec UnitsOldSpec UnitsRMSpec UnitsRMProofs.
Import ListNotations.
Open Scope R_scope.

(** Energies and widths multiplied by t^2 and lengths divided by t divide the cross sections by t^2;
    errors and numbers that are not finite stay *)
Theorem C102_system : forall t C s e, 0 < t -> rm_evaluate C (units_rm_system t s) (t * t * e) = units_triple t (rm_evaluate C s e).
Proof. intros t C s e T. exact (rm_units t T C s e). Qed.
Print Assumptions C102_system.
(** From the file and any pair of radii, and with the radii of the file (AP, APL and the tabulated one)
    unless NAPS is 0.  The sort of the levels is any that looks at their statistical factors only *)
Theorem C102_made : forall t C sort f tag ch sc useAPL, 0 < t -> rm_keyed sort ->
  rm_build C sort (units_rm_file t f) tag (units_length t ch) (units_length t sc) useAPL = units_rm_made t (rm_build C sort f tag ch sc useAPL).
Proof. intros t C sort f tag ch sc useAPL T K. exact (rm_build_units t T C sort f tag ch sc useAPL K). Qed.
Print Assumptions C102_made.
Theorem C102_file : forall t C sort f NRO NAPS table, 0 < t -> rm_keyed sort -> NAPS <> 0%Z ->
  rm_apply C sort (units_rm_file t f) NRO NAPS (units_table t table) = units_rm_made t (rm_apply C sort f NRO NAPS table).
Proof. intros t C sort f NRO NAPS table T K N. exact (rm_apply_units t T C sort f NRO NAPS table K N). Qed.
Print Assumptions C102_file.

(** A file with fission, in units 9 times smaller for energies and 3 times larger for lengths *)
Example C102_case : rm_keyed (insertion_sort rm_flagged) /\ exists s x y z, rm_apply 1 (insertion_sort rm_flagged) (units_rm_file 3 (a_file 1 1 fissile)) false 1 None = Ok (units_rm_system 3 s) /\
  rm_evaluate 1 s 1 = Ok (Some (x, y, z)) /\ rm_evaluate 1 (units_rm_system 3 s) (3 * 3 * 1) = Ok (Some (x / (3 * 3), y / (3 * 3), z / (3 * 3))).
Proof.
  split; [exact insertion_rm_keyed|]. assert (Hin : rm_input 1 (a_file 1 1 fissile) 1 false 1 None a_radius a_radius) by (apply a_input; [lia | exact fissile_GG]).
  destruct (rm_apply_ok 1 (insertion_sort rm_flagged) _ 1 false 1 None _ _ 1 Hin (insertion_sorts rm_flagged)
    (a_evaluable 1 1 fissile 1 ltac:(lia) ltac:(lra) fissile_fine) Logic.I) as (s & ((x & y) & z) & Hs & He).
  exists s, x, y, z. split; [|split; [exact He|]].
  - change None with (units_table 3 None) at 1. rewrite C102_file; [rewrite Hs; reflexivity | lra | exact insertion_rm_keyed | discriminate].
  - rewrite C102_system by lra. rewrite He. reflexivity.
Qed.
