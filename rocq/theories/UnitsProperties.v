(** C100: the units of energy and length do not matter for Breit-Wigner cross sections.  hbar, epsilon0,
    the neutron mass and the Coulomb wave functions are arbitrary. *)
From Coq Require Import String List ZArith Reals Lra.
From Verif Require Import Outcome CoulombModel HardSphereModel KinematicsModel RMatrixModel ChannelModel BreitWignerModel LegacyModel JumpCases UnitsSpec UnitsProofs UnitsDerived.
Open Scope R_scope.

(** A system of neutral channels: energies and widths multiplied by t^2 and lengths divided by t
    divide the cross sections by t^2; errors and numbers that are not finite stay *)
Theorem C100_slbw : forall t hbar epsilon0 cwf s e m, 0 < t -> (forall g, In g (ly_groups s) -> uncharged (lg_channel g)) ->
  legacy_evaluate hbar (legacySLBW hbar epsilon0 cwf) (units_system t s) (t * t * e) (units_map t m) = units_result t (legacy_evaluate hbar (legacySLBW hbar epsilon0 cwf) s e m).
Proof. intros t hbar epsilon0 cwf s e m T U. exact (slbw_system_units t T hbar epsilon0 cwf s e m U). Qed.
Print Assumptions C100_slbw.
Theorem C100_mlbw : forall t hbar epsilon0 cwf s e m, 0 < t -> (forall g, In g (ly_groups s) -> uncharged (lg_channel g)) ->
  legacy_evaluate hbar (legacyMLBW hbar epsilon0 cwf) (units_system t s) (t * t * e) (units_map t m) = units_result t (legacy_evaluate hbar (legacyMLBW hbar epsilon0 cwf) s e m).
Proof. intros t hbar epsilon0 cwf s e m T U. exact (mlbw_system_units t T hbar epsilon0 cwf s e m U). Qed.
Print Assumptions C100_mlbw.
(** The same from the file, unless NAPS is 0 (the radius is then derived from the mass, in fixed units) *)
Theorem C100_made : forall t hbar epsilon0 cwf mn incident target f nro naps, 0 < t -> naps <> 0%nat ->
  makeLegacyBreitWigner hbar epsilon0 cwf mn incident target (units_file t f) (units_table t nro) naps =
  match makeLegacyBreitWigner hbar epsilon0 cwf mn incident target f nro naps with Ok (Some s) => Ok (Some (units_system t s)) | o => o end.
Proof. intros t hbar epsilon0 cwf mn incident target f nro naps T N. exact (file_units t T hbar epsilon0 cwf mn incident target f nro naps N). Qed.
Print Assumptions C100_made.
Theorem C100_file : forall t hbar epsilon0 cwf mn incident target f nro naps s e m, 0 < t -> naps <> 0%nat ->
  makeLegacyBreitWigner hbar epsilon0 cwf mn incident target f nro naps = Ok (Some s) ->
  exists s', makeLegacyBreitWigner hbar epsilon0 cwf mn incident target (units_file t f) (units_table t nro) naps = Ok (Some s') /\
    legacy_evaluate hbar (legacySLBW hbar epsilon0 cwf) s' (t * t * e) (units_map t m) = units_result t (legacy_evaluate hbar (legacySLBW hbar epsilon0 cwf) s e m) /\
    legacy_evaluate hbar (legacyMLBW hbar epsilon0 cwf) s' (t * t * e) (units_map t m) = units_result t (legacy_evaluate hbar (legacyMLBW hbar epsilon0 cwf) s e m).
Proof. intros t hbar epsilon0 cwf mn incident target f nro naps s e m T N H. exact (file_values t T hbar epsilon0 cwf mn incident target f nro naps s e m N H). Qed.
Print Assumptions C100_file.

(** With NAPS = 0 it is not so: the system made from the file in other units is another one *)
Theorem C100_derived : forall epsilon0 cwf, exists t s, 0 < t /\ makeLegacyBreitWigner 2 epsilon0 cwf 2 "n" "t" jump_file None 0 = Ok (Some s) /\
  makeLegacyBreitWigner 2 epsilon0 cwf 2 "n" "t" (units_file t jump_file) None 0 <> Ok (Some (units_system t s)).
Proof. exact derived_fixed. Qed.
Print Assumptions C100_derived.

(** The file of C95, with levels for l = 0, 1 and 2, in units 9 times smaller for energies and 3 times larger for lengths *)
Example C100_case epsilon0 cwf m : exists s s' a b, makeLegacyBreitWigner 2 epsilon0 cwf 2 "n" "t" jump_file None 1 = Ok (Some s) /\
  makeLegacyBreitWigner 2 epsilon0 cwf 2 "n" "t" (units_file 3 jump_file) None 1 = Ok (Some s') /\
  legacy_evaluate 2 (legacySLBW 2 epsilon0 cwf) s' (3 * 3 * 12) (units_map 3 m) = Ok (Some (units_map 3 a)) /\
  legacy_evaluate 2 (legacyMLBW 2 epsilon0 cwf) s' (3 * 3 * 12) (units_map 3 m) = Ok (Some (units_map 3 b)).
Proof.
  destruct (jump_made epsilon0 cwf) as (s & S). destruct (jump_new epsilon0 cwf s m S) as ((a & A) & (b & B)).
  destruct (C100_file 3 2 epsilon0 cwf 2 "n" "t" jump_file None 1 s 12 m ltac:(lra) ltac:(discriminate) S) as (s' & S' & X & Y).
  exists s, s', a, b. split; [exact S|]. split; [exact S'|]. rewrite X, Y, A, B. split; reflexivity.
Qed.
